(** When declarations extend others: integer lists may allow more, tags that were
    refused may get a case, and structs may get further fields in such cases. *)
From Coq Require Import ZArith String List Bool.
From Verif Require Import Base Ast InspectModel InspectSpec GoLang WireSpec SameSpec.
Import ListNotations.
Open Scope string_scope.
Open Scope list_scope.
Open Scope Z_scope.

Section Ext.
(** The errors that may go away. *)
Variable gone : string -> Prop.
(** The values of constants on both sides. *)
Variable cv cv' : string -> option Z.

(** [o'] allows all that [o] allows. *)
Definition allows (cv : string -> option Z) (o : option intlist) (x : Z) : Prop :=
  match o with None => True | Some l => in_list cv l x end.
Definition looser (o o' : option intlist) : Prop := forall x, allows cv o x -> allows cv' o' x.

Inductive extT : type -> type -> Prop :=
| Ext_int : forall sz c c', looser c c' -> gone "integer constraint violated" \/ (forall x, allows cv' c' x -> allows cv c x) -> extT (TInt sz c) (TInt sz c')
| Ext_char : extT TChar TChar
| Ext_ptr : extT TPtr TPtr
| Ext_nul : extT TNul TNul
| Ext_struct : forall n, extT (TStruct n) (TStruct n)
| Ext_fixed : forall b b' i i', extT b b' -> sameInt cv cv' i i' -> extT (TFixed b i) (TFixed b' i')
| Ext_var : forall b b' c c', extT b b' -> sameLengths cv cv' c c' -> extT (TVar b c) (TVar b' c').

(** A case that is refused. *)
Definition refuses (ms : list member) : Prop := exists rest, ms = MFail :: rest.

Inductive extM : member -> member -> Prop :=
| Ext_field : forall nm t t', extT t t' -> extM (MField nm t) (MField nm t')
| Ext_union : forall u u' tag len len' cs cs', sameLengths cv cv' len len' ->
    (forall x c, takes cv cs x c -> gone "disallowed case" /\ refuses (ucase_members c) \/
       (exists c', takes cv' cs' x c') /\ forall c', takes cv' cs' x c' -> Forall2 extM (ucase_members c) (ucase_members c')) ->
    (forall x, (forall c, ~ takes cv cs x c) -> forall c', ~ takes cv' cs' x c') ->
    extM (MUnion u tag len cs) (MUnion u' tag len' cs')
| Ext_eos : extM MEOS MEOS
| Ext_ignore : extM MIgnore MIgnore
| Ext_fail : extM MFail MFail.

(** No field is removed or gets another type. *)
Definition keepsFields (ms ms' : list member) : Prop :=
  forall nm t, In (nm, t) (flat_map allFields ms) -> exists t', In (nm, t') (flat_map allFields ms') /\ extT t t'.

Definition extStruct (s s' : struct) : Prop :=
  sname s = sname s' /\ scontexts s = scontexts s' /\ Extern s' = false /\
  Forall2 extM (members_of s) (members_of s') /\ keepsFields (members_of s) (members_of s').
End Ext.

(** Every struct of [fs] is extended by one of [fs']; contexts stay. *)
Record extended (gone : string -> Prop) (cv cv' : string -> option Z) (fs fs' : list file) : Prop := {
  ext_structs : forall f s, In f fs -> In s (fstructs f) -> Extern s = false ->
    exists f' s', In f' fs' /\ In s' (fstructs f') /\ extStruct gone cv cv' s s';
  ext_contexts : forall f c, In f fs -> In c (fcontexts f) -> exists f', In f' fs' /\ In c (fcontexts f') }.

(** [v'] holds all that [v] holds: in structs there may be further fields. *)
Inductive holds : value -> value -> Prop :=
| Holds_same : forall v, holds v v
| Holds_list : forall vs vs', Forall2 holds vs vs' -> holds (VList vs) (VList vs')
| Holds_struct : forall n fs fs', (forall k v, alookup k fs = Some v -> exists v', alookup k fs' = Some v' /\ holds v v') ->
    holds (VStruct n fs) (VStruct n fs').
Definition holdsFields (fs fs' : amap value) : Prop :=
  forall k v, alookup k fs = Some v -> exists v', alookup k fs' = Some v' /\ holds v v'.

(** The errors that can go away at all. *)
Definition refusal (e : string) : Prop := e = "integer constraint violated" \/ e = "disallowed case".

(** A way to extend unions: the cases stay, with members extended, and cases are
    added for integers [x] with [may x]. *)
Section Cases.
Variable gone : string -> Prop.
Variable cv cv' : string -> option Z.
Variable may : Z -> Prop.
Inductive extCases : list ucase -> list ucase -> Prop :=
| ExtC_nil : extCases [] []
| ExtC_stays : forall c c' cs cs', sameLists cv cv' (ucase_list c) (ucase_list c') ->
    gone "disallowed case" /\ refuses (ucase_members c) \/ Forall2 (extM gone cv cv') (ucase_members c) (ucase_members c') ->
    extCases cs cs' -> extCases (c :: cs) (c' :: cs')
| ExtC_new : forall l ms cs cs', (forall x, in_list cv' l x -> may x) -> extCases cs cs' -> extCases cs (UCase (Some l) ms :: cs').
End Cases.
(** The tags that are refused. *)
Definition refused (cv : string -> option Z) (cs : list ucase) (x : Z) : Prop :=
  exists c, takes cv cs x c /\ refuses (ucase_members c).
