(** The fragment of Go of GoLang.v again, now on a machine with memory: pointers,
    slices that share arrays, append that writes into spare capacity, integers
    as wide as the platform has them.  This file describes Go, not trunnel.

    Still simplified: arrays and strings are values; locals are not in memory
    (their addresses are never taken); memory is never freed and never runs
    out; an assignment evaluates its right side first, then the place on its
    left side. *)
From Coq Require Import ZArith String List Bool.
From Verif Require Import Base GoLang.
Import ListNotations.
Open Scope string_scope.
Open Scope list_scope.
Open Scope Z_scope.

Definition loc := nat.

(** A slice is a piece of an array in memory: where it starts, its length and its
    capacity. *)
Inductive hval : Type :=
| HInt (z : Z)
| HStr (s : bytes)
| HSlice (base : loc) (off len cap : nat)
| HArr (l : list hval)
| HPtr (p : loc)
| HNil
| HErr (m : string)
| HBool (b : bool).

(** What memory holds: arrays and structs. *)
Inductive obj : Type :=
| OArray (l : list hval)
| OStruct (ty : string) (fs : amap hval).
Definition heap := list obj.
Definition henv := list (string * hval).

Definition alloc (o : obj) (H : heap) : loc * heap := (List.length H, H ++ [o]).
Definition hset (p : loc) (o : obj) (H : heap) : heap := updN H p o.

(** The platform: bytes per word, and how append chooses a capacity. *)
Record platform : Type := mkPlatform { word : Z; grow : nat -> nat }.

(** Conversion to [int]. *)
Definition sint (w z : Z) : Z :=
  let m := 2 ^ (8 * w) in let r := z mod m in if r <? m / 2 then r else r - m.

Fixpoint hsize (w : Z) (t : gtype) : Z :=
  match t with
  | GUint b => b / 8
  | GByte => 1
  | GInt | GPtr _ => w
  | GString | GError => 2 * w
  | GSlice _ => 3 * w
  | GArray n t' => n * hsize w t'
  end.
Definition hmax (w : Z) : Z := if w =? 8 then maxAlloc else 2 ^ 32 - 1.

Fixpoint hzero (t : gtype) : hval :=
  match t with
  | GUint _ | GByte | GInt => HInt 0
  | GString => HStr []
  | GError | GPtr _ | GSlice _ => HNil
  | GArray n t' => HArr (repeat (hzero t') (Z.to_nat n))
  end.
Definition hzeros (fs : list (string * gtype)) : amap hval :=
  map (fun ft => (fst ft, hzero (snd ft))) fs.

Fixpoint hassign {A} (x : string) (v : A) (e : list (string * A)) : list (string * A) :=
  match e with
  | [] => []
  | (y, w) :: e' => if String.eqb x y then (y, v) :: e' else (y, w) :: hassign x v e'
  end.
Definition hleave {A} (e0 e : list A) : list A := skipn (List.length e - List.length e0) e.

(** The elements of a slice, and its bytes. *)
Definition elements (H : heap) (base : loc) (off len : nat) : option (list hval) :=
  match nth_error H base with
  | Some (OArray l) => Some (firstn len (skipn off l))
  | _ => match len with O => Some [] | _ => None end
  end.
Fixpoint ints (l : list hval) : option bytes :=
  match l with
  | [] => Some []
  | HInt z :: l' => match ints l' with Some b => Some (z :: b) | None => None end
  | _ => None
  end.
Definition bytesOf (H : heap) (v : hval) : option bytes :=
  match v with
  | HSlice b off len _ => match elements H b off len with Some l => ints l | None => None end
  | HNil => Some []
  | _ => None
  end.

Section Machine.
Variable pl : platform.
Variable types : amap (list (string * gtype)).

Definition hevalBin (o : binop) (a b : Z) : hval :=
  match o with
  | BEq => HBool (a =? b)
  | BLe => HBool (a <=? b)
  | BLt => HBool (a <? b)
  | BGt => HBool (b <? a)
  | BAdd => HInt (sint (word pl) (a + b))
  | BSub => HInt (sint (word pl) (a - b))
  | BAnd | BOr => HNil
  end.

(** The value of an expression, and memory afterwards. *)
Fixpoint heval (H : heap) (e : henv) (x : expr) {struct x} : outcome (hval * heap) :=
  match x with
  | EInt z => Ok (HInt z, H)
  | EVar n => match alookup n e with Some v => Ok (v, H) | None => stuck end
  | ESel a f =>
      '(v, H) <- heval H e a ;;
      match v with
      | HPtr p =>
          match nth_error H p with
          | Some (OStruct _ fs) => match alookup f fs with Some w => Ok (w, H) | None => stuck end
          | _ => stuck
          end
      | HNil => Panic "nil pointer dereference"
      | _ => stuck
      end
  | EIdx a i =>
      '(v, H) <- heval H e a ;; '(k, H) <- heval H e i ;;
      match v, k with
      | HArr l, HInt z => match nthZ l z with Some w => Ok (w, H) | None => Panic "index out of range" end
      | HSlice b off len _, HInt z =>
          match elements H b off len with
          | Some l => match nthZ l z with Some w => Ok (w, H) | None => Panic "index out of range" end
          | None => stuck
          end
      | HNil, HInt _ => Panic "index out of range"
      | _, _ => stuck
      end
  | ELen a =>
      '(v, H) <- heval H e a ;;
      match v with
      | HSlice _ _ len _ => Ok (HInt (Z.of_nat len), H)
      | HArr l => Ok (HInt (blen l), H)
      | HNil => Ok (HInt 0, H)
      | _ => stuck
      end
  | EToInt a =>
      '(v, H) <- heval H e a ;;
      match v with HInt z => Ok (HInt (sint (word pl) z), H) | _ => stuck end
  | EBin BAnd a b =>
      '(v, H) <- heval H e a ;;
      match v with
      | HBool false => Ok (HBool false, H)
      | HBool true => '(w, H) <- heval H e b ;; match w with HBool _ => Ok (w, H) | _ => stuck end
      | _ => stuck
      end
  | EBin BOr a b =>
      '(v, H) <- heval H e a ;;
      match v with
      | HBool true => Ok (HBool true, H)
      | HBool false => '(w, H) <- heval H e b ;; match w with HBool _ => Ok (w, H) | _ => stuck end
      | _ => stuck
      end
  | EBin o a b =>
      '(v, H) <- heval H e a ;; '(w, H) <- heval H e b ;;
      match v, w with HInt p, HInt q => Ok (hevalBin o p q, H) | _, _ => stuck end
  | ENot a =>
      '(v, H) <- heval H e a ;;
      match v with HBool b => Ok (HBool (negb b), H) | _ => stuck end
  | EParen a => heval H e a
  | ENotNil a =>
      '(v, H) <- heval H e a ;;
      match v with
      | HNil => Ok (HBool false, H)
      | HErr _ | HPtr _ | HSlice _ _ _ _ => Ok (HBool true, H)
      | _ => stuck
      end
  | EFrom a i =>
      '(v, H) <- heval H e a ;; '(k, H) <- heval H e i ;;
      match v, k with
      | HSlice b off len cap, HInt z =>
          if (z <? 0) || (Z.of_nat len <? z) then Panic "slice bounds out of range"
          else Ok (HSlice b (off + Z.to_nat z) (len - Z.to_nat z) (cap - Z.to_nat z), H)
      | _, _ => stuck
      end
  | ETo a i =>                      (* up to the capacity, beyond the length *)
      '(v, H) <- heval H e a ;; '(k, H) <- heval H e i ;;
      match v, k with
      | HSlice b off len cap, HInt z =>
          if (z <? 0) || (Z.of_nat cap <? z) then Panic "slice bounds out of range"
          else Ok (HSlice b off (Z.to_nat z) cap, H)
      | _, _ => stuck
      end
  | EBigEndian bits a =>
      '(v, H) <- heval H e a ;;
      match bytesOf H v with
      | Some b =>
          if (bits =? 16) || (bits =? 32) || (bits =? 64) then
            if blen b <? bits / 8 then Panic "index out of range"
            else Ok (HInt (be (firstn (Z.to_nat (bits / 8)) b)), H)
          else stuck
      | None => stuck
      end
  | EIndexByte a z =>
      '(v, H) <- heval H e a ;;
      match bytesOf H v with Some b => Ok (HInt (indexByte b z 0), H) | None => stuck end
  | EStringOf a =>
      '(v, H) <- heval H e a ;;
      match bytesOf H v with Some b => Ok (HStr b, H) | None => stuck end
  | EEmptyBytes => let '(p, H) := alloc (OArray []) H in Ok (HSlice p 0 0 0, H)
  | EMake t n =>
      '(v, H) <- heval H e n ;;
      match v with
      | HInt z =>
          if (z <? 0) || (hmax (word pl) <? z * hsize (word pl) t) then Panic "makeslice: len out of range"
          else
            let k := Z.to_nat z in
            let '(p, H) := alloc (OArray (repeat (hzero t) k)) H in Ok (HSlice p 0 k k, H)
      | _ => stuck
      end
  | ENew n =>
      match alookup n types with
      | Some fs => let '(p, H) := alloc (OStruct n (hzeros fs)) H in Ok (HPtr p, H)
      | None => stuck
      end
  | EAppend a b =>
      '(v, H) <- heval H e a ;; '(w, H) <- heval H e b ;;
      match v with
      | HSlice p off len cap =>
          match nth_error H p with
          | Some (OArray l) =>
              if (len <? cap)%nat then
                Ok (HSlice p off (S len) cap, hset p (OArray (updN l (off + len) w)) H)
              else
                let c := Nat.max (S len) (grow pl len) in
                let '(q, H) := alloc (OArray (firstn len (skipn off l) ++ w :: repeat HNil (c - S len))) H in
                Ok (HSlice q 0 (S len) c, H)
          | _ => stuck
          end
      | HNil =>
          let c := Nat.max 1 (grow pl 0) in
          let '(q, H) := alloc (OArray (w :: repeat HNil (c - 1))) H in
          Ok (HSlice q 0 1 c, H)
      | _ => stuck
      end
  | ENil => Ok (HNil, H)
  | EError m => Ok (HErr m, H)
  | EBlank => stuck
  end.

Fixpoint hevals (H : heap) (e : henv) (l : list expr) : outcome (list hval * heap) :=
  match l with
  | [] => Ok ([], H)
  | x :: l' => '(v, H) <- heval H e x ;; '(vs, H) <- hevals H e l' ;; Ok (v :: vs, H)
  end.

(** Store [v] in the place [l]. *)
Fixpoint hstore (H : heap) (e : henv) (l : lval) (v : hval) {struct l} : outcome (heap * henv) :=
  match l with
  | LVar x => match alookup x e with Some _ => Ok (H, hassign x v e) | None => stuck end
  | LField l' f =>
      '(w, H) <- heval H e (lexpr l') ;;
      match w with
      | HPtr p =>
          match nth_error H p with
          | Some (OStruct ty fs) =>
              match alookup f fs with
              | Some _ => Ok (hset p (OStruct ty (hassign f v fs)) H, e)
              | None => stuck
              end
          | _ => stuck
          end
      | HNil => Panic "nil pointer dereference"
      | _ => stuck
      end
  | LIdx l' i =>
      '(w, H) <- heval H e (lexpr l') ;; '(k, H) <- heval H e i ;;
      match w, k with
      | HArr xs, HInt z =>
          match nthZ xs z with
          | Some _ => hstore H e l' (HArr (updN xs (Z.to_nat z) v))
          | None => Panic "index out of range"
          end
      | HSlice b off len _, HInt z =>
          match nth_error H b with
          | Some (OArray l) =>
              if (0 <=? z) && (z <? Z.of_nat len) then Ok (hset b (OArray (updN l (off + Z.to_nat z) v)) H, e)
              else Panic "index out of range"
          | _ => stuck
          end
      | HNil, HInt _ => Panic "index out of range"
      | _, _ => stuck
      end
  end.

Inductive hres : Type :=
| HNext
| HRet (v w : hval)
| HPanic (m : string)
| HFuel.
Definition hstate := (heap * henv * hres)%type.

Definition hlift {A} (H : heap) (e : henv) (x : outcome A) (k : A -> hstate) : hstate :=
  match x with
  | Ok a => k a
  | Err _ => (H, e, HPanic "ill-typed")
  | Panic m => (H, e, HPanic m)
  | OutOfFuel => (H, e, HFuel)
  end.

(** A call [o.Parse(a, args...)]: memory afterwards and how the method ended. *)
Definition hcallfun := heap -> hval -> hval -> list hval -> heap * hres.

Section Exec.
Variable call : hcallfun.
Variable n : nat.

Fixpoint hexec (s : stmt) (H : heap) (e : henv) {struct s} : hstate :=
  let hexecs := fix hexecs (ss : list stmt) (H : heap) (e : henv) {struct ss} : hstate :=
    match ss with
    | [] => (H, e, HNext)
    | s1 :: ss' =>
        let '(H1, e1, r) := hexec s1 H e in
        match r with HNext => hexecs ss' H1 e1 | _ => (H1, e1, r) end
    end in
  let block (b : list stmt) (H : heap) (e : henv) :=
    let '(H1, e1, r) := hexecs b H e in (H1, hleave e e1, r) in
  match s with
  | SDecl x a => hlift H e (heval H e a) (fun '(v, H) => (H, (x, v) :: e, HNext))
  | SVar x t => (H, (x, hzero t) :: e, HNext)
  | SAssign l a =>
      hlift H e (heval H e a) (fun '(v, H) =>
      hlift H e (hstore H e l v) (fun '(H, e) => (H, e, HNext)))
  | SAssign2 l1 l2 a b =>
      hlift H e (heval H e a) (fun '(v, H) =>
      hlift H e (heval H e b) (fun '(w, H) =>
      hlift H e (hstore H e l1 v) (fun '(H, e) =>
      hlift H e (hstore H e l2 w) (fun '(H, e) => (H, e, HNext)))))
  | SIf c b =>
      hlift H e (heval H e c) (fun '(v, H) =>
      match v with
      | HBool true => block b H e
      | HBool false => (H, e, HNext)
      | _ => (H, e, HPanic "ill-typed")
      end)
  | SBlock b => block b H e
  | SForLt x bound b =>
      let loop := fix loop (m : nat) (H : heap) (e : henv) {struct m} : hstate :=
        hlift H e (heval H e (EBin BLt (EVar x) bound)) (fun '(v, H) =>
        match v with
        | HBool false => (H, e, HNext)
        | HBool true =>
            match m with
            | O => (H, e, HFuel)
            | S m' =>
                let '(H1, e1, r) := block b H e in
                match r with
                | HNext =>
                    hlift H1 e1 (heval H1 e1 (EBin BAdd (EVar x) (EInt 1)))
                      (fun '(w, H2) => loop m' H2 (hassign x w e1))
                | _ => (H1, e1, r)
                end
            end
        | _ => (H, e, HPanic "ill-typed")
        end) in
      let '(H1, e1, r) := loop n H ((x, HInt 0) :: e) in (H1, hleave e e1, r)
  | SWhile c b =>
      let loop := fix loop (m : nat) (H : heap) (e : henv) {struct m} : hstate :=
        hlift H e (heval H e c) (fun '(v, H) =>
        match v with
        | HBool false => (H, e, HNext)
        | HBool true =>
            match m with
            | O => (H, e, HFuel)
            | S m' =>
                let '(H1, e1, r) := block b H e in
                match r with HNext => loop m' H1 e1 | _ => (H1, e1, r) end
            end
        | _ => (H, e, HPanic "ill-typed")
        end) in
      loop n H e
  | SSwitch cs =>
      let default := fix default (cs : list (option expr * list stmt)) (H : heap) : hstate :=
        match cs with
        | [] => (H, e, HNext)
        | (None, b) :: _ => block b H e
        | (Some _, _) :: cs' => default cs' H
        end in
      let pick := fix pick (cs0 : list (option expr * list stmt)) (H : heap) : hstate :=
        match cs0 with
        | [] => default cs H
        | (None, _) :: cs' => pick cs' H
        | (Some c, b) :: cs' =>
            hlift H e (heval H e c) (fun '(v, H) =>
            match v with
            | HBool true => block b H e
            | HBool false => pick cs' H
            | _ => (H, e, HPanic "ill-typed")
            end)
        end in
      pick cs H
  | SReturn a b =>
      hlift H e (heval H e a) (fun '(v, H) =>
      hlift H e (heval H e b) (fun '(w, H) => (H, e, HRet v w)))
  | SParse x err o a args =>
      hlift H e (heval H e (lexpr o)) (fun '(recv, H) =>
      hlift H e (heval H e a) (fun '(d, H) =>
      hlift H e (hevals H e args) (fun '(vs, H) =>
      let '(H, r) := call H recv d vs in
      match r with
      | HRet v w =>
          hlift H e (hstore H e (LVar x) v) (fun '(H, e) =>
          hlift H e (hstore H e (LVar err) w) (fun '(H, e) => (H, e, HNext)))
      | HNext => (H, e, HPanic "missing return")
      | _ => (H, e, r)
      end)))
  | SParseDecl err o a args =>
      hlift H e (heval H e (lexpr o)) (fun '(recv, H) =>
      hlift H e (heval H e a) (fun '(d, H) =>
      hlift H e (hevals H e args) (fun '(vs, H) =>
      let '(H, r) := call H recv d vs in
      match r with
      | HRet v w => (H, (err, w) :: e, HNext)
      | HNext => (H, e, HPanic "missing return")
      | _ => (H, e, r)
      end)))
  end.

Fixpoint hexecs (ss : list stmt) (H : heap) (e : henv) {struct ss} : hstate :=
  match ss with
  | [] => (H, e, HNext)
  | s1 :: ss' =>
      let '(H1, e1, r) := hexec s1 H e in
      match r with HNext => hexecs ss' H1 e1 | _ => (H1, e1, r) end
  end.
End Exec.
End Machine.

(** Calling a method with at most [n] nested calls and loop iterations. *)
Fixpoint hcallMethod (pl : platform) (p : program) (n : nat) (H : heap) (recv data : hval) (args : list hval) {struct n}
  : heap * hres :=
  match recv with
  | HPtr l =>
      match nth_error H l with
      | Some (OStruct ty _) =>
          match alookup ty (pmethods p) with
          | None => (H, HPanic "ill-typed")
          | Some f =>
              match n with
              | O => (H, HFuel)
              | S m =>
                  let e0 := (frecv f, recv) :: ("data", data) :: combine (fparams f) args in
                  let '(H1, _, r) := hexecs pl (ptypes p) (hcallMethod pl p m) m (fbody f) H e0 in (H1, r)
              end
          end
      | _ => (H, HPanic "ill-typed")
      end
  | HNil => (H, HPanic "nil pointer dereference")
  | _ => (H, HPanic "ill-typed")
  end.

(** Calling ParseX. *)
Definition hcallCtor (pl : platform) (p : program) (n : nat) (ty : string) (H : heap) (data : hval) (args : list hval)
  : heap * hres :=
  match alookup ty (pctors p) with
  | None => (H, HPanic "ill-typed")
  | Some f =>
      let '(H1, _, r) := hexecs pl (ptypes p) (hcallMethod pl p n) n (fbody f) H (("data", data) :: combine (fparams f) args) in
      (H1, r)
  end.
