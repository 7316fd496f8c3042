(** Specification vocabulary for interval sets, independent of the model's
    functions: plain sets of integers. *)
From Coq Require Import ZArith List.
From Verif Require Import Base IntervalsModel.
Import ListNotations.
Open Scope Z_scope.

(** An interval as Go can hold it: 64-bit bounds, built by [Range]. *)
Definition valid (i : interval) : Prop := 0 <= lo i /\ lo i <= hi i /\ hi i < two64.

(** [x] lies in some interval of the list. *)
Definition covers (is : list interval) (x : Z) : Prop :=
  exists i, In i is /\ lo i <= x <= hi i.

(** [x] lies in two entries of the list at different positions. *)
Definition covers_twice (is : list interval) (x : Z) : Prop :=
  exists l1 i l2 j l3,
    is = l1 ++ i :: l2 ++ j :: l3 /\ lo i <= x <= hi i /\ lo j <= x <= hi j.

(** Increasing and pairwise disjoint, all above [b]. *)
Fixpoint ordered_from (b : Z) (is : list interval) : Prop :=
  match is with
  | [] => True
  | i :: is' => b < lo i /\ lo i <= hi i /\ ordered_from (hi i) is'
  end.
Definition ordered (is : list interval) : Prop := ordered_from (-1) is.

(** Number of integers in a list of disjoint intervals, without wrap-around. *)
Fixpoint card (is : list interval) : Z :=
  match is with
  | [] => 0
  | i :: is' => (hi i - lo i + 1) + card is'
  end.

(** The sets a client can hold: everything [NewSet], [IntType] and [Subtract]
    return. *)
Definition wf_set (s : iset) : Prop :=
  Forall valid (intervals s) /\ ordered (intervals s).
