(** Moving members into a struct of their own. *)
From Coq Require Import ZArith String List Bool.
From Verif Require Import Base Ast InspectModel InspectSpec GoLang GenCheck WireSpec.
Import ListNotations.
Open Scope string_scope.
Open Scope list_scope.
Open Scope Z_scope.

Definition namesIn (ms : list member) : list string := map fst (flat_map allFields ms).

(** [regroup kept groups ms ms']: the members [ms'] are [ms] where, also inside
    of union cases, stretches of members have been replaced by one member [x] of a
    struct [t] that consists of them, for each [(x, t)] in [groups].  [kept] are the
    fields that stay where they are.  The stretches contain no positions, which in
    [t] would count from the start of [t]. *)
Inductive regroup : list string -> list (string * struct) -> list member -> list member -> Prop :=
| Regroup_nil : regroup [] [] [] []
| Regroup_stays : forall m o g ms ms', regroup o g ms ms' ->
    regroup (namesIn [m] ++ o) g (m :: ms) (m :: ms')
| Regroup_union : forall u tag len cs cs' o0 g0 o g ms ms', regroupCases o0 g0 cs cs' -> regroup o g ms ms' ->
    regroup (o0 ++ o) (g0 ++ g) (MUnion u tag len cs :: ms) (MUnion u tag len cs' :: ms')
| Regroup_group : forall x t o g ms ms', forallb noPtrM (members_of t) = true -> regroup o g ms ms' ->
    regroup o ((x, t) :: g) (members_of t ++ ms) (MField x (TStruct (sname t)) :: ms')
with regroupCases : list string -> list (string * struct) -> list ucase -> list ucase -> Prop :=
| RegroupC_nil : regroupCases [] [] [] []
| RegroupC_cons : forall l ms ms' cs cs' o g o' g', regroup o g ms ms' -> regroupCases o' g' cs cs' ->
    regroupCases (o ++ o') (g ++ g') (UCase l ms :: cs) (UCase l ms' :: cs').
Scheme regroup_ind2 := Induction for regroup Sort Prop
with regroupCases_ind2 := Induction for regroupCases Sort Prop.
Combined Scheme regroup_mutind from regroup_ind2, regroupCases_ind2.

Section Values.
Variable camel : string -> string.
Variable cv : string -> option Z.

(** The fields of the struct [t] are still as in a new value, and there is no [x]. *)
Definition unset (x : string) (t : struct) (fs fs' : amap value) : Prop :=
  alookup (camel x) fs' = Some VNil /\
  forall nm ty, In (nm, ty) (flat_map allFields (members_of t)) -> alookup (camel nm) fs = Some (blankOf cv ty).
(** [x] holds what the fields of [t] hold. *)
Definition moved (x : string) (t : struct) (fs fs' : amap value) : Prop :=
  exists b, alookup (camel x) fs' = Some (VStruct (camel (sname t)) b) /\ map fst b = map camel (namesIn (members_of t)) /\
    forall nm, In nm (namesIn (members_of t)) -> alookup (camel nm) b = alookup (camel nm) fs.
(** The same contents in both arrangements. *)
Definition regrouped (kept : list string) (groups : list (string * struct)) (fs fs' : amap value) : Prop :=
  (forall nm, In nm kept -> alookup (camel nm) fs = alookup (camel nm) fs') /\
  forall x t, In (x, t) groups -> unset x t fs fs' \/ moved x t fs fs'.
End Values.
