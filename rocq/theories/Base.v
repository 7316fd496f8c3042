(** Common definitions: outcomes of Go computations, 64-bit arithmetic,
    association lists standing for Go maps. *)
From Coq Require Import ZArith String List Bool.
Import ListNotations.
Open Scope Z_scope.

(** Outcome of running a piece of Go code.  [Ok] is a normal return, [Err] an
    error return (with its text), [Panic] a run-time panic (with its text) and
    [OutOfFuel] means that the interpreter stopped before the code did; the
    theorems never treat it as a result of the code. *)
Inductive outcome (A : Type) : Type :=
| Ok (a : A)
| Err (e : string)
| Panic (m : string)
| OutOfFuel.
Arguments Ok {A} a.
Arguments Err {A} e.
Arguments Panic {A} m.
Arguments OutOfFuel {A}.

Definition bind {A B} (x : outcome A) (f : A -> outcome B) : outcome B :=
  match x with
  | Ok a => f a
  | Err e => Err e
  | Panic m => Panic m
  | OutOfFuel => OutOfFuel
  end.

Declare Scope outcome_scope.
Delimit Scope outcome_scope with outcome.
Notation "x <- e ;; k" := (bind e (fun x => k))
  (at level 61, e at next level, right associativity) : outcome_scope.
Notation "' p <- e ;; k" := (bind e (fun p => k))
  (at level 61, p pattern, e at next level, right associativity) : outcome_scope.
Open Scope outcome_scope.

Fixpoint mapM {A B} (f : A -> outcome B) (l : list A) : outcome (list B) :=
  match l with
  | [] => Ok []
  | a :: l' => b <- f a ;; bs <- mapM f l' ;; Ok (b :: bs)
  end.

(** 2^64 and the two re-interpretations Go performs on 64-bit words. *)
Definition two64 : Z := 18446744073709551616.
Definition two63 : Z := 9223372036854775808.
Definition max64 : Z := 18446744073709551615.

(** Conversion to [uint64] (also: wrap-around of [uint64] arithmetic). *)
Definition u64 (z : Z) : Z := z mod two64.

(** Conversion to [int64]/[int] on a 64-bit platform. *)
Definition s64 (z : Z) : Z :=
  let w := z mod two64 in if w <? two63 then w else w - two64.

Definition is_u64 (z : Z) : Prop := 0 <= z < two64.

(** Bytes are integers in [0,256). *)
Definition is_byte (z : Z) : Prop := 0 <= z < 256.
Definition bytes := list Z.
Definition all_bytes (b : bytes) : Prop := Forall is_byte b.

(** Go maps with string keys. *)
Definition amap (A : Type) := list (string * A).

Fixpoint alookup {A} (k : string) (m : amap A) : option A :=
  match m with
  | [] => None
  | (k', v) :: m' => if String.eqb k k' then Some v else alookup k m'
  end.

(** [m[k] = v]: overwrite in place or add. *)
Fixpoint ainsert {A} (k : string) (v : A) (m : amap A) : amap A :=
  match m with
  | [] => [(k, v)]
  | (k', v') :: m' =>
      if String.eqb k k' then (k, v) :: m' else (k', v') :: ainsert k v m'
  end.

(** [delete(m, k)]. *)
Fixpoint adelete {A} (k : string) (m : amap A) : amap A :=
  match m with
  | [] => []
  | (k', v') :: m' =>
      if String.eqb k k' then adelete k m' else (k', v') :: adelete k m'
  end.

Definition akeys {A} (m : amap A) : list string := map fst m.
