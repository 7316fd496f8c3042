(** When declarations give more details than older ones: members are added at the
    end of a struct or in place of ignored input. *)
From Coq Require Import ZArith String List Bool.
From Verif Require Import Base Ast InspectModel InspectSpec GoLang WireSpec SameSpec ExtSpec.
Import ListNotations.
Open Scope string_scope.
Open Scope list_scope.
Open Scope Z_scope.

Section Older.
Variable camel : string -> string.
(** The values of constants on the older and on the newer side. *)
Variable cv cv' : string -> option Z.
(** The structs that are used in other structs. *)
Variable used : string -> Prop.

Inductive olderT : type -> type -> Prop :=
| Older_int : forall sz c c', looser cv' cv c' c -> olderT (TInt sz c) (TInt sz c')
| Older_char : olderT TChar TChar
| Older_ptr : olderT TPtr TPtr
| Older_nul : olderT TNul TNul
| Older_struct : forall n, used n -> olderT (TStruct n) (TStruct n)
| Older_fixed : forall b b' i i', olderT b b' -> sameInt cv cv' i i' -> olderT (TFixed b i) (TFixed b' i')
| Older_var : forall b b' c c', olderT b b' -> sameLengths cv cv' c c' -> olderT (TVar b c) (TVar b' c').

Definition namesOf (ms : list member) : list string := map fst (flat_map allFields ms).

(** The names of the fields of the older struct. *)
Variable old : list string.
(** Members whose fields are new, also as Go fields. *)
Definition fresh (ms : list member) : Prop :=
  forall nm, In nm (namesOf ms) -> ~ In (camel nm) (map camel old).

(** [closed]: whatever follows in the input belongs to these members. *)
Inductive olderM : member -> member -> Prop :=
| Older_field : forall nm t t', olderT t t' -> olderM (MField nm t) (MField nm t')
| Older_union : forall u u' tag len len' cs cs', sameLengths cv cv' len len' ->
    (forall x c', takes cv' cs' x c' -> refuses (ucase_members c') \/
       (exists c, takes cv cs x c) /\
       forall c, takes cv cs x c -> olderMs (match len with None => false | Some _ => true end) (ucase_members c) (ucase_members c')) ->
    (forall x, (forall c', ~ takes cv' cs' x c') -> forall c, ~ takes cv cs x c) ->
    olderM (MUnion u tag len cs) (MUnion u' tag len' cs')
| Older_eos : olderM MEOS MEOS
| Older_ignore : olderM MIgnore MIgnore
with olderMs : bool -> list member -> list member -> Prop :=
| Older_nil : forall closed, olderMs closed [] []
| Older_cons : forall closed m m' ms ms', olderM m m' -> olderMs closed ms ms' -> olderMs closed (m :: ms) (m' :: ms')
| Older_rest : forall ms', fresh ms' -> olderMs true [MIgnore] ms'
| Older_dots : forall closed ms', fresh ms' -> olderMs closed [MIgnore] (ms' ++ [MIgnore]).
End Older.

(** [s'] is [s] with more details, followed by the members [more]. *)
Definition olderStruct (camel : string -> string) (cv cv' : string -> option Z) (used : string -> Prop) (more : list member) (s s' : struct) : Prop :=
  sname s = sname s' /\ scontexts s = scontexts s' /\ Extern s' = false /\
  (exists ms', members_of s' = ms' ++ more /\ olderMs camel cv cv' used (namesOf (members_of s)) false (members_of s) ms') /\
  fresh camel (namesOf (members_of s)) more /\
  forall nm t, In (nm, t) (flat_map allFields (members_of s)) -> exists t', In (nm, t') (flat_map allFields (members_of s')) /\ olderT cv cv' used t t'.

(** The structs that are used elsewhere have nothing added at the end. *)
Record older (camel : string -> string) (cv cv' : string -> option Z) (used : string -> Prop) (fs fs' : list file) : Prop := {
  older_structs : forall f s, In f fs -> In s (fstructs f) -> Extern s = false -> used (sname s) ->
    exists f' s', In f' fs' /\ In s' (fstructs f') /\ olderStruct camel cv cv' used [] s s';
  older_contexts : forall f c, In f fs -> In c (fcontexts f) -> exists f', In f' fs' /\ In c (fcontexts f') }.

(** A way to get newer unions: cases stay, and cases are added for tags [x] with [may x]. *)
Section Cases.
Variable camel : string -> string.
Variable cv cv' : string -> option Z.
Variable used : string -> Prop.
Variable old : list string.
Variable closed : bool.
Variable may : Z -> Prop.
Inductive olderCases : list ucase -> list ucase -> Prop :=
| OlderC_nil : olderCases [] []
| OlderC_stays : forall c c' cs cs', sameLists cv cv' (ucase_list c) (ucase_list c') ->
    olderMs camel cv cv' used old closed (ucase_members c) (ucase_members c') \/ refuses (ucase_members c') ->
    olderCases cs cs' -> olderCases (c :: cs) (c' :: cs')
| OlderC_new : forall l ms cs cs', (forall x, in_list cv' l x -> may x) ->
    olderMs camel cv cv' used old closed [MIgnore] ms -> olderCases cs cs' -> olderCases cs (UCase (Some l) ms :: cs').
End Cases.
(** The tags for which input is ignored. *)
Definition ignored (cv : string -> option Z) (cs : list ucase) (x : Z) : Prop :=
  exists c, takes cv cs x c /\ ucase_members c = [MIgnore].
