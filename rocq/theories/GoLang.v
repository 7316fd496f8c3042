(** The fragment of Go that gen/decl.go emits: syntax and an interpreter.
    This file describes Go, not trunnel.

    Simplifications, all of them invisible to the emitted programs on 64-bit
    platforms (P_Memory.v proves it against the machine with memory of GoMem.v):
    - pointers to structs are represented by the struct itself: the emitted code
      stores every fresh object in exactly one place, so there is no aliasing;
    - a byte slice is its content: the emitted code never writes to one, and
      never extends one within its capacity;
    - [int] is 64 bits wide. *)
From Coq Require Import ZArith String List Bool.
From Verif Require Import Base.
Import ListNotations.
Open Scope string_scope.
Open Scope list_scope.
Open Scope Z_scope.

(** Types of fields and variables. *)
Inductive gtype : Type :=
| GUint (bits : Z)
| GByte
| GInt
| GString
| GError
| GPtr (n : string)
| GArray (n : Z) (t : gtype)
| GSlice (t : gtype).

(** Values. [VNil] is the nil pointer, slice or error.  [VBytes] is a [[]byte]
    used as input, [VList] an array or slice being built. *)
Inductive value : Type :=
| VInt (z : Z)
| VStr (s : bytes)
| VBytes (b : bytes)
| VList (l : list value)
| VStruct (ty : string) (fs : amap value)
| VNil
| VErr (m : string)
| VBool (b : bool).

Inductive binop : Type := BEq | BLe | BLt | BGt | BAnd | BOr | BAdd | BSub.

Inductive expr : Type :=
| EInt (z : Z)
| EVar (x : string)
| ESel (e : expr) (f : string)
| EIdx (e i : expr)
| ELen (e : expr)
| EToInt (e : expr)
| EBin (o : binop) (a b : expr)
| ENot (e : expr)
| EParen (e : expr)
| ENotNil (e : expr)
| EFrom (e i : expr)          (* e[i:] *)
| ETo (e i : expr)            (* e[:i] *)
| EBigEndian (bits : Z) (e : expr)
| EIndexByte (e : expr) (z : Z)
| EStringOf (e : expr)
| EEmptyBytes                 (* []byte{} *)
| EMake (t : gtype) (n : expr)
| ENew (n : string)
| EAppend (a b : expr)
| ENil
| EError (m : string)         (* errors.New("...") *)
| EBlank.                     (* nothing at all; not valid Go *)

(** Assignable expressions. *)
Inductive lval : Type :=
| LVar (x : string)
| LField (l : lval) (f : string)
| LIdx (l : lval) (i : expr).

Fixpoint lexpr (l : lval) : expr :=
  match l with
  | LVar x => EVar x
  | LField l f => ESel (lexpr l) f
  | LIdx l i => EIdx (lexpr l) i
  end.

Inductive stmt : Type :=
| SDecl (x : string) (e : expr)                        (* x := e *)
| SVar (x : string) (t : gtype)                        (* var x t *)
| SAssign (l : lval) (e : expr)
| SAssign2 (l1 l2 : lval) (e1 e2 : expr)               (* l1, l2 = e1, e2 *)
| SIf (c : expr) (b : list stmt)
| SBlock (b : list stmt)
| SForLt (x : string) (bound : expr) (b : list stmt)   (* for x := 0; x < bound; x++ *)
| SWhile (c : expr) (b : list stmt)
| SSwitch (cs : list (option expr * list stmt))        (* None is default *)
| SReturn (e1 e2 : expr)
| SParse (x err : string) (o : lval) (a : expr) (args : list expr)
                                                       (* x, err = o.Parse(a, args...) *)
| SParseDecl (err : string) (o : lval) (a : expr) (args : list expr).
                                                       (* _, err := o.Parse(a, args...) *)

(** A Parse method: receiver and parameter names (the first parameter is
    always [data]). *)
Record func : Type := mkFunc { frecv : string; fparams : list string; fbody : list stmt }.

(** A package: struct types, Parse methods by type, ParseX functions by type
    ([frecv] is unused in those). *)
Record program : Type := mkProg {
  ptypes : amap (list (string * gtype));
  pmethods : amap func;
  pctors : amap func }.

(** Zero values. *)
Fixpoint zero (t : gtype) : value :=
  match t with
  | GUint _ | GByte | GInt => VInt 0
  | GString => VStr []
  | GError | GPtr _ | GSlice _ => VNil
  | GArray n t' => VList (repeat (zero t') (Z.to_nat n))
  end.
Definition zeros (fs : list (string * gtype)) : amap value :=
  map (fun ft => (fst ft, zero (snd ft))) fs.

(** Sizes in bytes on amd64, and the largest object ([maxAlloc] of the runtime). *)
Fixpoint gsize (t : gtype) : Z :=
  match t with
  | GUint b => b / 8
  | GByte => 1
  | GInt | GPtr _ => 8
  | GString | GError => 16
  | GSlice _ => 24
  | GArray n t' => n * gsize t'
  end.
Definition maxAlloc : Z := 281474976710656.

(** Variables in scope, innermost first. *)
Definition env := list (string * value).

(** [x = v] for a variable in scope. *)
Fixpoint assign (x : string) (v : value) (e : env) : env :=
  match e with
  | [] => []
  | (y, w) :: e' => if String.eqb x y then (y, v) :: e' else (y, w) :: assign x v e'
  end.

(** Drop what was declared since the scope was [e0]. *)
Definition leave (e0 e : env) : env := skipn (List.length e - List.length e0) e.

Definition stuck {A} : outcome A := Panic "ill-typed".

(** Big-endian value of a byte string. *)
Definition be (b : bytes) : Z := fold_left (fun a x => a * 256 + x) b 0.

(** [bytes.IndexByte]. *)
Fixpoint indexByte (b : bytes) (z : Z) (k : Z) : Z :=
  match b with
  | [] => -1
  | x :: b' => if x =? z then k else indexByte b' z (k + 1)
  end.

(** Element [i] of a list. *)
Definition nthZ {A} (l : list A) (i : Z) : option A :=
  if i <? 0 then None else nth_error l (Z.to_nat i).
Fixpoint updN {A} (l : list A) (i : nat) (v : A) : list A :=
  match l, i with
  | [], _ => []
  | _ :: l', O => v :: l'
  | a :: l', S i' => a :: updN l' i' v
  end.

Definition blen {A} (l : list A) : Z := Z.of_nat (List.length l).

Definition evalBin (o : binop) (a b : Z) : value :=
  match o with
  | BEq => VBool (a =? b)
  | BLe => VBool (a <=? b)
  | BLt => VBool (a <? b)
  | BGt => VBool (b <? a)
  | BAdd => VInt (s64 (a + b))
  | BSub => VInt (s64 (a - b))
  | BAnd | BOr => VNil
  end.

Section Eval.
Variable types : amap (list (string * gtype)).

Fixpoint eval (e : env) (x : expr) : outcome value :=
  match x with
  | EInt z => Ok (VInt z)
  | EVar n => match alookup n e with Some v => Ok v | None => stuck end
  | ESel a f =>
      v <- eval e a ;;
      match v with
      | VStruct _ fs => match alookup f fs with Some w => Ok w | None => stuck end
      | VNil => Panic "nil pointer dereference"
      | _ => stuck
      end
  | EIdx a i =>
      v <- eval e a ;; k <- eval e i ;;
      match v, k with
      | VList l, VInt z => match nthZ l z with Some w => Ok w | None => Panic "index out of range" end
      | VBytes l, VInt z => match nthZ l z with Some w => Ok (VInt w) | None => Panic "index out of range" end
      | VNil, VInt _ => Panic "index out of range"
      | _, _ => stuck
      end
  | ELen a =>
      v <- eval e a ;;
      match v with VBytes b => Ok (VInt (blen b)) | _ => stuck end
  | EToInt a =>
      v <- eval e a ;;
      match v with VInt z => Ok (VInt (s64 z)) | _ => stuck end
  | EBin BAnd a b =>
      v <- eval e a ;;
      match v with
      | VBool false => Ok (VBool false)
      | VBool true => w <- eval e b ;; match w with VBool _ => Ok w | _ => stuck end
      | _ => stuck
      end
  | EBin BOr a b =>
      v <- eval e a ;;
      match v with
      | VBool true => Ok (VBool true)
      | VBool false => w <- eval e b ;; match w with VBool _ => Ok w | _ => stuck end
      | _ => stuck
      end
  | EBin o a b =>
      v <- eval e a ;; w <- eval e b ;;
      match v, w with VInt p, VInt q => Ok (evalBin o p q) | _, _ => stuck end
  | ENot a =>
      v <- eval e a ;;
      match v with VBool b => Ok (VBool (negb b)) | _ => stuck end
  | EParen a => eval e a
  | ENotNil a =>
      v <- eval e a ;;
      match v with VNil => Ok (VBool false) | VErr _ => Ok (VBool true) | _ => stuck end
  | EFrom a i =>
      v <- eval e a ;; k <- eval e i ;;
      match v, k with
      | VBytes b, VInt z =>
          if (z <? 0) || (blen b <? z) then Panic "slice bounds out of range"
          else Ok (VBytes (skipn (Z.to_nat z) b))
      | _, _ => stuck
      end
  | ETo a i =>
      v <- eval e a ;; k <- eval e i ;;
      match v, k with
      | VBytes b, VInt z =>
          if (z <? 0) || (blen b <? z) then Panic "slice bounds out of range"
          else Ok (VBytes (firstn (Z.to_nat z) b))
      | _, _ => stuck
      end
  | EBigEndian bits a =>
      v <- eval e a ;;
      match v with
      | VBytes b =>
          if (bits =? 16) || (bits =? 32) || (bits =? 64) then
            if blen b <? bits / 8 then Panic "index out of range"
            else Ok (VInt (be (firstn (Z.to_nat (bits / 8)) b)))
          else stuck
      | _ => stuck
      end
  | EIndexByte a z =>
      v <- eval e a ;;
      match v with VBytes b => Ok (VInt (indexByte b z 0)) | _ => stuck end
  | EStringOf a =>
      v <- eval e a ;;
      match v with VBytes b => Ok (VStr b) | _ => stuck end
  | EEmptyBytes => Ok (VBytes [])
  | EMake t n =>
      v <- eval e n ;;
      match v with
      | VInt z =>
          if (z <? 0) || (maxAlloc <? z * gsize t) then Panic "makeslice: len out of range"
          else Ok (VList (repeat (zero t) (Z.to_nat z)))
      | _ => stuck
      end
  | ENew n => match alookup n types with Some fs => Ok (VStruct n (zeros fs)) | None => stuck end
  | EAppend a b =>
      v <- eval e a ;; w <- eval e b ;;
      match v with
      | VList l => Ok (VList (l ++ [w]))
      | VNil => Ok (VList [w])
      | _ => stuck
      end
  | ENil => Ok VNil
  | EError m => Ok (VErr m)
  | EBlank => stuck
  end.

(** Store [v] in the place [l]. *)
Fixpoint store (e : env) (l : lval) (v : value) : outcome env :=
  match l with
  | LVar x => match alookup x e with Some _ => Ok (assign x v e) | None => stuck end
  | LField l' f =>
      w <- eval e (lexpr l') ;;
      match w with
      | VStruct t fs =>
          match alookup f fs with Some _ => store e l' (VStruct t (assign f v fs)) | None => stuck end
      | VNil => Panic "nil pointer dereference"
      | _ => stuck
      end
  | LIdx l' i =>
      w <- eval e (lexpr l') ;; k <- eval e i ;;
      match w, k with
      | VList xs, VInt z =>
          match nthZ xs z with
          | Some _ => store e l' (VList (updN xs (Z.to_nat z) v))
          | None => Panic "index out of range"
          end
      | VNil, VInt _ => Panic "index out of range"
      | _, _ => stuck
      end
  end.

(** How a statement ends. *)
Inductive sres : Type :=
| SNext
| SRet (v1 v2 : value)
| SPanic (m : string)
| SFuel.

Definition lift {A} (e : env) (x : outcome A) (k : A -> env * sres) : env * sres :=
  match x with
  | Ok a => k a
  | Err _ => (e, SPanic "ill-typed")
  | Panic m => (e, SPanic m)
  | OutOfFuel => (e, SFuel)
  end.

(** The result of a call [o.Parse(a, args...)]: the receiver afterwards and how
    the method ended. *)
Definition callfun := value -> value -> list value -> value * sres.

Section Exec.
Variable call : callfun.
Variable n : nat.  (* bound on the number of iterations of one loop *)

Fixpoint exec (s : stmt) (e : env) {struct s} : env * sres :=
  let execs := fix execs (ss : list stmt) (e : env) {struct ss} : env * sres :=
    match ss with
    | [] => (e, SNext)
    | s1 :: ss' =>
        let '(e1, r) := exec s1 e in
        match r with SNext => execs ss' e1 | _ => (e1, r) end
    end in
  let block (b : list stmt) (e : env) := let '(e1, r) := execs b e in (leave e e1, r) in
  match s with
  | SDecl x a => lift e (eval e a) (fun v => ((x, v) :: e, SNext))
  | SVar x t => ((x, zero t) :: e, SNext)
  | SAssign l a => lift e (eval e a) (fun v => lift e (store e l v) (fun e' => (e', SNext)))
  | SAssign2 l1 l2 a b =>
      lift e (eval e a) (fun v =>
      lift e (eval e b) (fun w =>
      lift e (store e l1 v) (fun e1 =>
      lift e1 (store e1 l2 w) (fun e2 => (e2, SNext)))))
  | SIf c b =>
      lift e (eval e c) (fun v =>
      match v with
      | VBool true => block b e
      | VBool false => (e, SNext)
      | _ => (e, SPanic "ill-typed")
      end)
  | SBlock b => block b e
  | SForLt x bound b =>
      let loop := fix loop (m : nat) (e : env) {struct m} : env * sres :=
        lift e (eval e (EBin BLt (EVar x) bound)) (fun v =>
        match v with
        | VBool false => (e, SNext)
        | VBool true =>
            match m with
            | O => (e, SFuel)
            | S m' =>
                let '(e1, r) := block b e in
                match r with
                | SNext =>
                    lift e1 (eval e1 (EBin BAdd (EVar x) (EInt 1))) (fun w => loop m' (assign x w e1))
                | _ => (e1, r)
                end
            end
        | _ => (e, SPanic "ill-typed")
        end) in
      let '(e1, r) := loop n ((x, VInt 0) :: e) in (leave e e1, r)
  | SWhile c b =>
      let loop := fix loop (m : nat) (e : env) {struct m} : env * sres :=
        lift e (eval e c) (fun v =>
        match v with
        | VBool false => (e, SNext)
        | VBool true =>
            match m with
            | O => (e, SFuel)
            | S m' =>
                let '(e1, r) := block b e in
                match r with SNext => loop m' e1 | _ => (e1, r) end
            end
        | _ => (e, SPanic "ill-typed")
        end) in
      loop n e
  | SSwitch cs =>
      let default := fix default (cs : list (option expr * list stmt)) : env * sres :=
        match cs with
        | [] => (e, SNext)
        | (None, b) :: _ => block b e
        | (Some _, _) :: cs' => default cs'
        end in
      let pick := fix pick (cs0 : list (option expr * list stmt)) : env * sres :=
        match cs0 with
        | [] => default cs
        | (None, _) :: cs' => pick cs'
        | (Some c, b) :: cs' =>
            lift e (eval e c) (fun v =>
            match v with
            | VBool true => block b e
            | VBool false => pick cs'
            | _ => (e, SPanic "ill-typed")
            end)
        end in
      pick cs
  | SReturn a b => lift e (eval e a) (fun v => lift e (eval e b) (fun w => (e, SRet v w)))
  | SParse x err o a args =>
      lift e (eval e (lexpr o)) (fun recv =>
      lift e (eval e a) (fun d =>
      lift e (mapM (eval e) args) (fun vs =>
      let '(recv', r) := call recv d vs in
      match r with
      | SRet v w =>
          lift e (store e o recv') (fun e1 =>
          lift e1 (store e1 (LVar x) v) (fun e2 =>
          lift e2 (store e2 (LVar err) w) (fun e3 => (e3, SNext))))
      | SNext => (e, SPanic "missing return")
      | _ => (e, r)
      end)))
  | SParseDecl err o a args =>
      lift e (eval e (lexpr o)) (fun recv =>
      lift e (eval e a) (fun d =>
      lift e (mapM (eval e) args) (fun vs =>
      let '(recv', r) := call recv d vs in
      match r with
      | SRet v w =>
          lift e (store e o recv') (fun e1 => ((err, w) :: e1, SNext))
      | SNext => (e, SPanic "missing return")
      | _ => (e, r)
      end)))
  end.

Fixpoint execs (ss : list stmt) (e : env) {struct ss} : env * sres :=
  match ss with
  | [] => (e, SNext)
  | s1 :: ss' =>
      let '(e1, r) := exec s1 e in
      match r with SNext => execs ss' e1 | _ => (e1, r) end
  end.
End Exec.
End Eval.

(** Calling a method with at most [n] nested calls and loop iterations. *)
Fixpoint callMethod (p : program) (n : nat) (recv data : value) (args : list value) {struct n}
  : value * sres :=
  match recv with
  | VStruct ty _ =>
      match alookup ty (pmethods p) with
      | None => (recv, SPanic "ill-typed")
      | Some f =>
          match n with
          | O => (recv, SFuel)
          | S m =>
              let e0 := (frecv f, recv) :: ("data", data) :: combine (fparams f) args in
              let '(e1, r) := execs (ptypes p) (callMethod p m) m (fbody f) e0 in
              (match leave e0 e1 with (_, v) :: _ => v | [] => VNil end, r)
          end
      end
  | VNil => (recv, SPanic "nil pointer dereference")
  | _ => (recv, SPanic "ill-typed")
  end.

(** Calling ParseX. *)
Definition callCtor (p : program) (n : nat) (ty : string) (data : value) (args : list value) : sres :=
  match alookup ty (pctors p) with
  | None => SPanic "ill-typed"
  | Some f =>
      snd (execs (ptypes p) (callMethod p n) n (fbody f) (("data", data) :: combine (fparams f) args))
  end.
