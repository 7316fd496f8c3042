(** When declarations differ in the order in which the cases of unions are written, and in how
    integers are written.  Definitions only. *)
From Coq Require Import ZArith String List Bool Permutation.
From Verif Require Import Base Ast InspectModel InspectSpec GoLang SameSpec ExtSpec.
Import ListNotations.
Open Scope string_scope.
Open Scope list_scope.
Open Scope Z_scope.

(** No two cases are for the same integer, and there is at most one default. *)
Definition clash (cv : string -> option Z) (c d : ucase) : Prop :=
  ucase_list c = None /\ ucase_list d = None \/ exists x, case_matches cv c x /\ case_matches cv d x.
Definition apart (cv : string -> option Z) (cs : list ucase) : Prop := ForallOrdPairs (fun c d => ~ clash cv c d) cs.

Section Order.
(** The values of constants on both sides. *)
Variable cv cv' : string -> option Z.

Inductive arrM : member -> member -> Prop :=
| Arr_field : forall nm t t', sameT cv cv' t t' -> arrM (MField nm t) (MField nm t')
| Arr_union : forall u u' tag len len' cs cs1 cs', sameLengths cv cv' len len' -> apart cv cs ->
    Forall2 arrC cs cs1 -> Permutation cs1 cs' -> arrM (MUnion u tag len cs) (MUnion u' tag len' cs')
| Arr_eos : arrM MEOS MEOS
| Arr_ignore : arrM MIgnore MIgnore
| Arr_fail : arrM MFail MFail
with arrC : ucase -> ucase -> Prop :=
| Arr_case : forall l l' ms ms', sameLists cv cv' l l' -> Forall2 arrM ms ms' -> arrC (UCase l ms) (UCase l' ms').

Definition arrStruct (s s' : struct) : Prop :=
  sname s = sname s' /\ scontexts s = scontexts s' /\ Extern s = false /\ Extern s' = false /\ Forall2 arrM (members_of s) (members_of s').
End Order.

(** The same structs and contexts are declared on both sides, in this sense. *)
Record rearranged (cv cv' : string -> option Z) (fs fs' : list file) : Prop := {
  arr_structs : forall f s, In f fs -> In s (fstructs f) -> Extern s = false ->
    exists f' s', In f' fs' /\ In s' (fstructs f') /\ arrStruct cv cv' s s';
  arr_back : forall f' s', In f' fs' -> In s' (fstructs f') -> Extern s' = false ->
    exists f s, In f fs /\ In s (fstructs f) /\ arrStruct cv cv' s s';
  arr_contexts : forall c, (exists f, In f fs /\ In c (fcontexts f)) <-> (exists f', In f' fs' /\ In c (fcontexts f')) }.

(** Fields with the same names and contents, in whatever order they are declared. *)
Definition agree (fs fs' : amap value) : Prop := holdsFields fs fs' /\ holdsFields fs' fs.
