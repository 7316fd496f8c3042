(** C78: values can be written back.  [bytesOf], [writable] and [kept] are the writer
    of RoundSpec.v; they do not refer to the generated code. *)
From Coq Require Import ZArith String List Bool Lia.
From Verif Require Import Base Ast IntervalsModel InspectModel InspectSpec InspectProofs BranchProofs GoLang GenModel GenDecode GenCheck
  WireSpec WireProofs WireComplete GenTerm GenSafe WireFacts ReachSpec ReachProofs PackageSpec PackageProofs PackageFacts PackageMore
  RoundSpec RoundProofs GenExamples GenWitness.
Import ListNotations.
Open Scope string_scope.
Open Scope list_scope.
Open Scope Z_scope.

Lemma back_call : forall camel os fs r p, package camel os fs r p ->
  forall s fs0 data args, validCall camel fs r s fs0 data args -> ptrFiles fs = true -> ignoreFree r s ->
  forall v rest, parses camel p s fs0 data args v rest ->
  exists w, data = w ++ rest /\ encStruct camel (Constant r) (Struct r) True (contextsOf s args) s fs0 w rest v /\
    bytesOf camel r s (contextsOf s args) v = Some w /\ writable camel r s (contextsOf s args) v rest /\ kept camel r (contextsOf s args) s fs0 v.
Proof.
  intros camel os fs r p PK s fs0 data args VC PT IF v rest HP.
  destruct (the_bytes camel os fs r p PK s fs0 data args VC v rest PT HP) as (w & E & H). exists w. split; auto. split; auto.
  apply (struct_back camel r) with (w := w); auto.
  - intros. eapply str_check; eauto.
  - eapply vc_check; eauto.
  - intros a Ha. rewrite (vc_dom camel fs r s fs0 data args VC). now apply in_map.
Qed.
Lemma fit_call : forall camel os fs r p, package camel os fs r p ->
  forall s fs0 data args, validCall camel fs r s fs0 data args -> forall v rest,
  writable camel r s (contextsOf s args) v rest -> kept camel r (contextsOf s args) s fs0 v ->
  exists w, bytesOf camel r s (contextsOf s args) v = Some w /\ encStruct camel (Constant r) (Struct r) True (contextsOf s args) s fs0 w rest v.
Proof.
  intros camel os fs r p PK s fs0 data args VC v rest W K. apply (fit_struct camel r); auto.
  - intros. eapply str_check; eauto.
  - eapply vc_check; eauto.
  - apply (vc_dom camel fs r s fs0 data args VC).
Qed.

(** What the parser consumed is what the writer makes of the result. *)
Theorem C78_written_back : forall camel os fs r p, package camel os fs r p ->
  forall s fs0 data args, validCall camel fs r s fs0 data args -> ptrFiles fs = true -> ignoreFree r s ->
  forall v rest, parses camel p s fs0 data args v rest ->
  exists w, bytesOf camel r s (contextsOf s args) v = Some w /\ data = w ++ rest.
Proof.
  intros camel os fs r p PK s fs0 data args VC PT IF v rest HP.
  destruct (back_call camel os fs r p PK s fs0 data args VC PT IF v rest HP) as (w & E & _ & W & _). eauto.
Qed.
Print Assumptions C78_written_back.

(** What the writer makes of a value that fits is parsed to this value.  Fields of
    union cases that were not taken keep what they held before. *)
Theorem C78_read_back : forall camel os fs r p, package camel os fs r p ->
  forall s fs0 w rest args, validCall camel fs r s fs0 (w ++ rest) args -> ptrFiles fs = true -> roomyFiles fs r -> blen (w ++ rest) <= maxData ->
  forall v, writable camel r s (contextsOf s args) v rest -> kept camel r (contextsOf s args) s fs0 v ->
  bytesOf camel r s (contextsOf s args) v = Some w -> parses camel p s fs0 (w ++ rest) args v rest.
Proof.
  intros camel os fs r p PK s fs0 w rest args VC PT RO L v F K W.
  destruct (fit_call camel os fs r p PK s fs0 (w ++ rest) args VC v rest F K) as (w' & W' & E).
  assert (w' = w) by congruence. subst w'. apply (encodes_parses camel os fs r p PK s fs0 (w ++ rest) args VC PT RO L True w rest v); auto.
Qed.
Print Assumptions C78_read_back.

(** Values that fit have bytes. *)
Theorem C78_has_bytes : forall camel os fs r p, package camel os fs r p ->
  forall s fs0 data args, validCall camel fs r s fs0 data args -> forall v rest,
  writable camel r s (contextsOf s args) v rest -> kept camel r (contextsOf s args) s fs0 v ->
  exists w, bytesOf camel r s (contextsOf s args) v = Some w.
Proof.
  intros camel os fs r p PK s fs0 data args VC v rest W K.
  destruct (fit_call camel os fs r p PK s fs0 data args VC v rest W K) as (w & E & _). eauto.
Qed.
Print Assumptions C78_has_bytes.

(** Together: the results of the parser are the values that fit. *)
Theorem C78_exactly : forall camel os fs r p, package camel os fs r p ->
  forall s fs0 data args, validCall camel fs r s fs0 data args -> ptrFiles fs = true -> roomyFiles fs r -> blen data <= maxData -> ignoreFree r s ->
  forall v rest, parses camel p s fs0 data args v rest <->
    (exists w, bytesOf camel r s (contextsOf s args) v = Some w /\ data = w ++ rest) /\
    writable camel r s (contextsOf s args) v rest /\ kept camel r (contextsOf s args) s fs0 v.
Proof.
  intros camel os fs r p PK s fs0 data args VC PT RO L IF v rest. split.
  - intros HP. destruct (back_call camel os fs r p PK s fs0 data args VC PT IF v rest HP) as (w & E & _ & W & F & K). eauto.
  - intros ((w & W & ->) & F & K). eapply C78_read_back; eauto.
Qed.
Print Assumptions C78_exactly.

(** A value is parsed from its bytes whatever it was parsed from, and whatever
    follows if the struct says where it ends. *)
Theorem C78_again : forall camel os fs r p, package camel os fs r p ->
  forall s fs0 data args, validCall camel fs r s fs0 data args -> ptrFiles fs = true -> roomyFiles fs r -> ignoreFree r s -> selfDelimiting r s ->
  forall v rest, parses camel p s fs0 data args v rest ->
  exists w, bytesOf camel r s (contextsOf s args) v = Some w /\
    forall more, validCall camel fs r s fs0 (w ++ more) args -> blen (w ++ more) <= maxData -> parses camel p s fs0 (w ++ more) args v more.
Proof.
  intros camel os fs r p PK s fs0 data args VC PT RO IF SD v rest HP.
  destruct (back_call camel os fs r p PK s fs0 data args VC PT IF v rest HP) as (w & -> & E & W & _ & K). exists w. split; auto.
  intros more VC' L. apply (encodes_parses camel os fs r p PK s fs0 (w ++ more) args VC' PT RO L True w more v); auto.
  apply (struct_tail_free camel r True s SD _ _ _ _ _ E).
Qed.
Print Assumptions C78_again.

(** Ignored input is lost: it cannot be written back. *)
Theorem C78_ignored_refuted : exists camel os fs r p s fs0 data args v rest, package camel os fs r p /\ validCall camel fs r s fs0 data args /\ ptrFiles fs = true /\
  parses camel p s fs0 data args v rest /\ ~ exists w, bytesOf camel r s (contextsOf s args) v = Some w /\ data = w ++ rest.
Proof.
  pose (sk := mkStruct "skip" [] (Some [u8 "a"; MUnion "u" (local "a") None [UCase None [MIgnore]]])).
  exists camelX, osX, (one [sk]), (theRes (one [sk])), (theProg (one [sk])), sk, (blank camelX (Constant (theRes (one [sk]))) sk), [1; 2], [], [("A", VInt 1)], [].
  assert (PK : package camelX osX (one [sk]) (theRes (one [sk])) (theProg (one [sk]))) by (apply package_of; vm_compute; reflexivity).
  assert (VC : validCall camelX (one [sk]) (theRes (one [sk])) sk (blank camelX (Constant (theRes (one [sk]))) sk) [1; 2] []).
  { apply fresh_call; auto; try (vm_compute; reflexivity). { now left. } { apply bytes_ok; vm_compute; reflexivity. } }
  split; auto. split; auto. split; [reflexivity|]. split.
  - apply (parses_dec camelX osX (one [sk]) _ _ PK _ _ _ _ VC). exists 3%nat. vm_compute. reflexivity.
  - intros (w & W & E). vm_compute in W. injection W as <-. discriminate E.
Qed.
Print Assumptions C78_ignored_refuted.

(** A message without ignored parts: the bytes are computed from the fields, the
    fields fit, and the bytes are parsed before other bytes too. *)
Definition point7 : struct := mkStruct "point" [] (Some [u8 "x"; MField "y" (TInt 8 (Some [mkRange (ILit 1) (Some (ILit 3))]))]).
Definition msg7 : struct :=
  mkStruct "msg" [] (Some
    [u8 "tag"; u8 "len"; MField "pos" TPtr;
     MUnion "body" (local "tag") (Some (LRef (local "len")))
       [UCase (is 1) [MField "p" (TStruct "point"); MField "q" (TStruct "point")]; UCase (is 2) [MField "name" TNul];
        UCase (is 3) [MField "words" (TVar (TInt 16 None) None)]; UCase None [MFail]];
     u8 "count"; MField "pts" (TVar (TStruct "point") (Some (LRef (local "count")))); MField "pair" (TFixed (TInt 16 None) (ILit 2))]).
Definition demo7 : list file := one [point7; msg7].
Definition demo7R := theRes demo7.
Definition bytes7 : bytes := [1; 4; 5; 1; 6; 2; 1; 7; 3; 0; 8; 1; 0].
Definition fields7 : amap value :=
  [("Tag", VInt 1); ("Len", VInt 4); ("Pos", VInt 2); ("P", mkPoint 5 1); ("Q", mkPoint 6 2); ("Name", VStr []); ("Words", VNil);
   ("Count", VInt 1); ("Pts", VList [mkPoint 7 3]); ("Pair", VList [VInt 8; VInt 256])].
Lemma demo7_package : package camelX osX demo7 demo7R (theProg demo7).
Proof. apply package_of. vm_compute. reflexivity. Qed.
Lemma msg7_call : forall data, goBytes data -> validCall camelX demo7 demo7R msg7 (blank camelX (Constant demo7R) msg7) data [].
Proof. intros data GB. apply fresh_call; auto; try (vm_compute; reflexivity). right; now left. Qed.
Lemma msg7_ignoreFree : ignoreFree demo7R msg7.
Proof.
  assert (R : forall s', reaches demo7R mentions msg7 s' -> s' = msg7 \/ s' = point7).
  { intros s' R. induction R as [|s1 m nm s2 R IH I J E]; auto. destruct IH as [-> | ->].
    - cbn in I. repeat (destruct I as [<-|I]); try contradiction; cbn in J; repeat (destruct J as [<-|J]); try contradiction; vm_compute in E; injection E as <-; auto.
    - cbn in I. repeat (destruct I as [<-|I]); try contradiction; cbn in J; contradiction. }
  intros s' m RE I. apply R in RE as [-> | ->]; cbn in I; repeat (destruct I as [<-|I]); try contradiction; reflexivity.
Qed.
Lemma demo7_solid : solidFiles demo7 demo7R.
Proof.
  assert (E : eats (Constant demo7R) (Struct demo7R) (TStruct "point")).
  { apply Eats_struct with (s := point7); [vm_compute; reflexivity|]. constructor. constructor. constructor. reflexivity. }
  intros s (_ & f & [<-|[]] & Is) nm t I. cbn in Is. destruct Is as [<-|[<-|[]]]; cases I; cbn; auto.
Qed.
Lemma bytes7_ok : goBytes (bytes7 ++ [77]).
Proof. apply bytes_ok; vm_compute; reflexivity. Qed.
Lemma fields7_parsed : parses camelX (theProg demo7) msg7 (blank camelX (Constant demo7R) msg7) (bytes7 ++ [77]) [] fields7 [77].
Proof.
  apply (parses_dec camelX osX demo7 demo7R (theProg demo7) demo7_package _ _ _ _ (msg7_call _ bytes7_ok)).
  exists 6%nat. vm_compute. reflexivity.
Qed.
Example C78_case : bytesOf camelX demo7R msg7 [] fields7 = Some bytes7 /\ writable camelX demo7R msg7 [] fields7 [77] /\
  kept camelX demo7R [] msg7 (blank camelX (Constant demo7R) msg7) fields7 /\
  roomyFiles demo7 demo7R /\ ignoreFree demo7R msg7.
Proof.
  destruct (back_call camelX osX demo7 demo7R (theProg demo7) demo7_package _ _ _ _ (msg7_call _ bytes7_ok) eq_refl msg7_ignoreFree _ _ fields7_parsed) as (w & _ & _ & _ & F & K).
  split; [vm_compute; reflexivity|]. split; [exact F|]. split; [exact K|]. split; [left; exact demo7_solid|exact msg7_ignoreFree].
Qed.
(** A count that is not the number of elements, a length that is not that of the
    bytes, an integer out of its range: such values do not fit. *)
Example C78_case_unfit : ~ writable camelX demo7R point7 [] [("X", VInt 1); ("Y", VInt 4)] [] /\ ~ writable camelX demo7R point7 [] [("X", VInt 256); ("Y", VInt 1)] [].
Proof.
  split.
  - intros [_ [(v & E & H) _]]. vm_compute in E. injection E as <-. destruct H as [_ H]. specialize (H _ eq_refl). apply inList_spec in H. vm_compute in H. discriminate.
  - intros [(v & E & H) _]. vm_compute in E. injection E as <-. destruct H as [H _]. change (256 ^ (8 / 8)) with 256 in H. lia.
Qed.
