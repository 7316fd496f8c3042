(** When two sets of declarations describe the same parsers: they are equal up to
    how integers are written (a constant or its value), how lists of integers are
    written, and the names of unions. *)
From Coq Require Import ZArith String List Bool.
From Verif Require Import Base Ast InspectModel InspectSpec.
Import ListNotations.
Open Scope string_scope.
Open Scope list_scope.
Open Scope Z_scope.

Section Same.
(** The values of constants on both sides. *)
Variable cv cv' : string -> option Z.

Definition sameInt (i i' : integer) : Prop := exists v, int_value cv i = Some v /\ int_value cv' i' = Some v.
Definition sameList (l l' : intlist) : Prop := forall x, in_list cv l x <-> in_list cv' l' x.
Definition sameLists (o o' : option intlist) : Prop :=
  match o, o' with None, None => True | Some l, Some l' => sameList l l' | _, _ => False end.
Definition sameLength (c c' : lconstraint) : Prop :=
  match c, c' with LRef f, LRef f' => f = f' | LLeftover i, LLeftover i' => sameInt i i' | _, _ => False end.
Definition sameLengths (o o' : option lconstraint) : Prop :=
  match o, o' with None, None => True | Some c, Some c' => sameLength c c' | _, _ => False end.

Inductive sameT : type -> type -> Prop :=
| Same_int : forall sz c c', sameLists c c' -> sameT (TInt sz c) (TInt sz c')
| Same_char : sameT TChar TChar
| Same_ptr : sameT TPtr TPtr
| Same_nul : sameT TNul TNul
| Same_struct : forall n, sameT (TStruct n) (TStruct n)
| Same_fixed : forall b b' i i', sameT b b' -> sameInt i i' -> sameT (TFixed b i) (TFixed b' i')
| Same_var : forall b b' c c', sameT b b' -> sameLengths c c' -> sameT (TVar b c) (TVar b' c').

Inductive sameM : member -> member -> Prop :=
| Same_field : forall nm t t', sameT t t' -> sameM (MField nm t) (MField nm t')
| Same_union : forall u u' tag len len' cs cs', sameLengths len len' -> Forall2 sameC cs cs' ->
    sameM (MUnion u tag len cs) (MUnion u' tag len' cs')
| Same_eos : sameM MEOS MEOS
| Same_ignore : sameM MIgnore MIgnore
| Same_fail : sameM MFail MFail
with sameC : ucase -> ucase -> Prop :=
| Same_case : forall l l' ms ms', sameLists l l' -> Forall2 sameM ms ms' -> sameC (UCase l ms) (UCase l' ms').

Definition sameStruct (s s' : struct) : Prop :=
  sname s = sname s' /\ scontexts s = scontexts s' /\ Extern s' = false /\ Forall2 sameM (members_of s) (members_of s').
End Same.

(** Every struct and every context of [fs] is declared in [fs'] in this sense. *)
Record included (cv cv' : string -> option Z) (fs fs' : list file) : Prop := {
  inc_structs : forall f s, In f fs -> In s (fstructs f) -> Extern s = false ->
    exists f' s', In f' fs' /\ In s' (fstructs f') /\ sameStruct cv cv' s s';
  inc_contexts : forall f c, In f fs -> In c (fcontexts f) -> exists f', In f' fs' /\ In c (fcontexts f') }.
