(** Goroutines: several runs of the code of GoLang.v on the one memory of GoMem.v,
    interleaved in any way.  This file describes Go, not trunnel.

    A goroutine takes one step to evaluate an expression and one to store a value.
    Steps are not interleaved with each other.  What memory a step reads and
    writes is described separately, so that one can say when two goroutines are
    about to access the same object and one of them is about to write it, which
    the Go memory model calls a data race; without data races Go promises that
    there is some such interleaving.  An object is a whole array or struct here,
    finer than that nothing is distinguished. *)
From Coq Require Import ZArith String List Bool.
From Verif Require Import Base GoLang GoMem.
Import ListNotations.
Open Scope string_scope.
Open Scope list_scope.
Open Scope Z_scope.

(** What remains to be done by a goroutine.  [TType] asks for the type of what a
    pointer points to: Go knows it when it compiles a call, GoMem.v looks it up. *)
Inductive thread : Type :=
| TEnd (r : hres)
| TEval (e : henv) (x : expr) (k : hval -> thread)
| TStore (e : henv) (l : lval) (v : hval) (k : henv -> thread)
| TType (p : loc) (k : string -> thread).

(* ---------- the code ---------- *)

Fixpoint tevals (e : henv) (xs : list expr) (k : list hval -> thread) : thread :=
  match xs with
  | [] => k []
  | x :: xs' => TEval e x (fun v => tevals e xs' (fun vs => k (v :: vs)))
  end.

(** A call [o.Parse(a, args...)], and what comes after it. *)
Definition tcallfun := hval -> hval -> list hval -> (hres -> thread) -> thread.

Section Code.
Variable call : tcallfun.
Variable n : nat.

(** A statement with variables [e], and what comes after it; that is given the
    variables and [HNext] or [HRet]. *)
Fixpoint texec (s : stmt) (e : henv) (k : henv -> hres -> thread) {struct s} : thread :=
  let texecs := fix texecs (ss : list stmt) (e : henv) (k : henv -> hres -> thread) {struct ss} : thread :=
    match ss with
    | [] => k e HNext
    | s1 :: ss' => texec s1 e (fun e1 r => match r with HNext => texecs ss' e1 k | _ => k e1 r end)
    end in
  let block (b : list stmt) (e : henv) (k : henv -> hres -> thread) :=
    texecs b e (fun e1 r => k (hleave e e1) r) in
  match s with
  | SDecl x a => TEval e a (fun v => k ((x, v) :: e) HNext)
  | SVar x t => k ((x, hzero t) :: e) HNext
  | SAssign l a => TEval e a (fun v => TStore e l v (fun e => k e HNext))
  | SAssign2 l1 l2 a b =>
      TEval e a (fun v => TEval e b (fun w => TStore e l1 v (fun e => TStore e l2 w (fun e => k e HNext))))
  | SIf c b =>
      TEval e c (fun v =>
      match v with
      | HBool true => block b e k
      | HBool false => k e HNext
      | _ => TEnd (HPanic "ill-typed")
      end)
  | SBlock b => block b e k
  | SForLt x bound b =>
      let loop := fix loop (m : nat) (e : henv) (k : henv -> hres -> thread) {struct m} : thread :=
        TEval e (EBin BLt (EVar x) bound) (fun v =>
        match v with
        | HBool false => k e HNext
        | HBool true =>
            match m with
            | O => TEnd HFuel
            | S m' =>
                block b e (fun e1 r =>
                match r with
                | HNext => TEval e1 (EBin BAdd (EVar x) (EInt 1)) (fun w => loop m' (hassign x w e1) k)
                | _ => k e1 r
                end)
            end
        | _ => TEnd (HPanic "ill-typed")
        end) in
      loop n ((x, HInt 0) :: e) (fun e1 r => k (hleave e e1) r)
  | SWhile c b =>
      let loop := fix loop (m : nat) (e : henv) (k : henv -> hres -> thread) {struct m} : thread :=
        TEval e c (fun v =>
        match v with
        | HBool false => k e HNext
        | HBool true =>
            match m with
            | O => TEnd HFuel
            | S m' => block b e (fun e1 r => match r with HNext => loop m' e1 k | _ => k e1 r end)
            end
        | _ => TEnd (HPanic "ill-typed")
        end) in
      loop n e k
  | SSwitch cs =>
      let default := fix default (cs : list (option expr * list stmt)) : thread :=
        match cs with
        | [] => k e HNext
        | (None, b) :: _ => block b e k
        | (Some _, _) :: cs' => default cs'
        end in
      let pick := fix pick (cs0 : list (option expr * list stmt)) : thread :=
        match cs0 with
        | [] => default cs
        | (None, _) :: cs' => pick cs'
        | (Some c, b) :: cs' =>
            TEval e c (fun v =>
            match v with
            | HBool true => block b e k
            | HBool false => pick cs'
            | _ => TEnd (HPanic "ill-typed")
            end)
        end in
      pick cs
  | SReturn a b => TEval e a (fun v => TEval e b (fun w => k e (HRet v w)))
  | SParse x err o a args =>
      TEval e (lexpr o) (fun recv => TEval e a (fun d => tevals e args (fun vs =>
      call recv d vs (fun r =>
      match r with
      | HRet v w => TStore e (LVar x) v (fun e => TStore e (LVar err) w (fun e => k e HNext))
      | HNext => TEnd (HPanic "missing return")
      | _ => TEnd r
      end))))
  | SParseDecl err o a args =>
      TEval e (lexpr o) (fun recv => TEval e a (fun d => tevals e args (fun vs =>
      call recv d vs (fun r =>
      match r with
      | HRet v w => k ((err, w) :: e) HNext
      | HNext => TEnd (HPanic "missing return")
      | _ => TEnd r
      end))))
  end.

Fixpoint texecs (ss : list stmt) (e : henv) (k : henv -> hres -> thread) {struct ss} : thread :=
  match ss with
  | [] => k e HNext
  | s1 :: ss' => texec s1 e (fun e1 r => match r with HNext => texecs ss' e1 k | _ => k e1 r end)
  end.
End Code.

(** Calling a method with at most [n] nested calls and loop iterations. *)
Fixpoint tcallMethod (p : program) (n : nat) (recv data : hval) (args : list hval) (k : hres -> thread) {struct n} : thread :=
  match recv with
  | HPtr l =>
      TType l (fun ty =>
      match alookup ty (pmethods p) with
      | None => TEnd (HPanic "ill-typed")
      | Some f =>
          match n with
          | O => TEnd HFuel
          | S m => texecs (tcallMethod p m) m (fbody f) ((frecv f, recv) :: ("data", data) :: combine (fparams f) args) (fun _ r => k r)
          end
      end)
  | HNil => TEnd (HPanic "nil pointer dereference")
  | _ => TEnd (HPanic "ill-typed")
  end.

(** Calling ParseX. *)
Definition tcallCtor (p : program) (n : nat) (ty : string) (data : hval) (args : list hval) (k : hres -> thread) : thread :=
  match alookup ty (pctors p) with
  | None => TEnd (HPanic "ill-typed")
  | Some f => texecs (tcallMethod p n) n (fbody f) (("data", data) :: combine (fparams f) args) (fun _ r => k r)
  end.

(* ---------- running it ---------- *)

Section Machine.
Variable pl : platform.
Variable types : amap (list (string * gtype)).

(** How a step goes on: a panic ends the goroutine. *)
Definition resume {A} (H : heap) (x : outcome A) (k : A -> heap * thread) : heap * thread :=
  match x with
  | Ok a => k a
  | Err _ => (H, TEnd (HPanic "ill-typed"))
  | Panic m => (H, TEnd (HPanic m))
  | OutOfFuel => (H, TEnd HFuel)
  end.
Definition tstep (H : heap) (t : thread) : option (heap * thread) :=
  match t with
  | TEnd _ => None
  | TEval e x k => Some (resume H (heval pl types H e x) (fun '(v, H1) => (H1, k v)))
  | TStore e l v k => Some (resume H (hstore pl types H e l v) (fun '(H1, e1) => (H1, k e1)))
  | TType p k =>
      Some match nth_error H p with
           | Some (OStruct ty _) => (H, k ty)
           | _ => (H, TEnd (HPanic "ill-typed"))
           end
  end.

(** Several goroutines, any of which may take the next step. *)
Definition pool := (heap * list thread)%type.
Inductive pstep : pool -> pool -> Prop :=
| pstep_one H ts i t H1 t1 :
    nth_error ts i = Some t -> tstep H t = Some (H1, t1) -> pstep (H, ts) (H1, updN ts i t1).
Inductive psteps : pool -> pool -> Prop :=
| psteps_none P : psteps P P
| psteps_more P Q R : psteps P Q -> pstep Q R -> psteps P R.

(** One goroutine that is alone. *)
Fixpoint alone (t : thread) (H : heap) {struct t} : heap * hres :=
  match t with
  | TEnd r => (H, r)
  | TEval e x k =>
      match heval pl types H e x with
      | Ok (v, H1) => alone (k v) H1
      | Err _ => (H, HPanic "ill-typed")
      | Panic m => (H, HPanic m)
      | OutOfFuel => (H, HFuel)
      end
  | TStore e l v k =>
      match hstore pl types H e l v with
      | Ok (H1, e1) => alone (k e1) H1
      | Err _ => (H, HPanic "ill-typed")
      | Panic m => (H, HPanic m)
      | OutOfFuel => (H, HFuel)
      end
  | TType p k =>
      match nth_error H p with
      | Some (OStruct ty _) => alone (k ty) H
      | _ => (H, HPanic "ill-typed")
      end
  end.

(* ---------- accesses ---------- *)

Definition sliceReads (v : hval) : list loc :=
  match v with
  | HSlice _ _ O _ => []
  | HSlice b _ _ _ => [b]
  | _ => []
  end.

(** The objects whose contents are read to evaluate an expression.  Lengths and
    capacities are part of a slice, not of the array. *)
Fixpoint reads (H : heap) (e : henv) (x : expr) {struct x} : list loc :=
  match x with
  | EInt _ | EVar _ | EEmptyBytes | ENew _ | ENil | EError _ | EBlank => []
  | ESel a _ => reads H e a ++ match heval pl types H e a with Ok (HPtr p, _) => [p] | _ => [] end
  | EIdx a i =>
      reads H e a ++
      match heval pl types H e a with
      | Ok (v, H1) => reads H1 e i ++ sliceReads v
      | _ => []
      end
  | ELen a | EToInt a | ENot a | EParen a | ENotNil a => reads H e a
  | EBin BAnd a b =>
      reads H e a ++ match heval pl types H e a with Ok (HBool true, H1) => reads H1 e b | _ => [] end
  | EBin BOr a b =>
      reads H e a ++ match heval pl types H e a with Ok (HBool false, H1) => reads H1 e b | _ => [] end
  | EBin _ a b | EFrom a b | ETo a b =>
      reads H e a ++ match heval pl types H e a with Ok (_, H1) => reads H1 e b | _ => [] end
  | EBigEndian _ a | EIndexByte a _ | EStringOf a =>
      reads H e a ++ match heval pl types H e a with Ok (v, _) => sliceReads v | _ => [] end
  | EMake _ a => reads H e a
  | EAppend a b =>
      reads H e a ++
      match heval pl types H e a with
      | Ok (v, H1) => reads H1 e b ++ sliceReads v
      | _ => []
      end
  end.
(** The objects that are written to evaluate an expression, besides new ones. *)
Fixpoint writes (H : heap) (e : henv) (x : expr) {struct x} : list loc :=
  match x with
  | EInt _ | EVar _ | EEmptyBytes | ENew _ | ENil | EError _ | EBlank => []
  | ESel a _ | ELen a | EToInt a | ENot a | EParen a | ENotNil a | EBigEndian _ a | EIndexByte a _ | EStringOf a | EMake _ a => writes H e a
  | EIdx a b | EBin _ a b | EFrom a b | ETo a b =>
      writes H e a ++ match heval pl types H e a with Ok (_, H1) => writes H1 e b | _ => [] end
  | EAppend a b =>
      writes H e a ++
      match heval pl types H e a with
      | Ok (v, H1) => writes H1 e b ++ match v with HSlice p _ len cap => if (len <? cap)%nat then [p] else [] | _ => [] end
      | _ => []
      end
  end.
(** The same for storing in a place. *)
Fixpoint storeReads (H : heap) (e : henv) (l : lval) {struct l} : list loc :=
  match l with
  | LVar _ => []
  | LField l' _ => reads H e (lexpr l')
  | LIdx l' i =>
      reads H e (lexpr l') ++
      match heval pl types H e (lexpr l') with
      | Ok (v, H1) => reads H1 e i ++ match v, heval pl types H1 e i with HArr _, Ok (_, H2) => storeReads H2 e l' | _, _ => [] end
      | _ => []
      end
  end.
Fixpoint storeWrites (H : heap) (e : henv) (l : lval) {struct l} : list loc :=
  match l with
  | LVar _ => []
  | LField l' _ =>
      writes H e (lexpr l') ++ match heval pl types H e (lexpr l') with Ok (HPtr p, _) => [p] | _ => [] end
  | LIdx l' i =>
      writes H e (lexpr l') ++
      match heval pl types H e (lexpr l') with
      | Ok (v, H1) =>
          writes H1 e i ++
          match v, heval pl types H1 e i with
          | HSlice b _ _ _, Ok _ => [b]
          | HArr _, Ok (_, H2) => storeWrites H2 e l'
          | _, _ => []
          end
      | _ => []
      end
  end.

(** What the next step of a goroutine reads and writes. *)
Definition stepReads (H : heap) (t : thread) : list loc :=
  match t with
  | TEval e x _ => reads H e x
  | TStore e l _ _ => storeReads H e l
  | _ => []
  end.
Definition stepWrites (H : heap) (t : thread) : list loc :=
  match t with
  | TEval e x _ => writes H e x
  | TStore e l _ _ => storeWrites H e l
  | _ => []
  end.
(** Two goroutines are about to access an object, one of them to write it. *)
Definition race (P : pool) : Prop :=
  exists i j t u l, i <> j /\ nth_error (snd P) i = Some t /\ nth_error (snd P) j = Some u /\
    In l (stepWrites (fst P) t) /\ (In l (stepReads (fst P) u) \/ In l (stepWrites (fst P) u)).
End Machine.
