(** C69: parsing data that arrives in pieces. *)
From Coq Require Import ZArith String List Bool Lia ZifyBool ZifyNat.
From Verif Require Import Base Ast IntervalsModel InspectModel InspectSpec GoLang GenModel GenDecode GenCheck GenSimBody WireSpec WireProofs WireComplete WireFacts PackageSpec PackageProofs
  PackageFacts PackageMore GenPrefix GenExamples P_Parse.
Import ListNotations.
Open Scope string_scope.
Open Scope list_scope.
Open Scope Z_scope.

(** The errors that say that bytes are missing. *)
Definition tooShort (e : string) : Prop := e = "data too short" \/ e = "could not parse nul-term string".

Section Pack.
Variable camel : string -> string.
Variable os : nat -> orders.
Variable fs : list file.
Variable r : resolver.
Variable p : program.
Hypothesis PK : package camel os fs r p.
Hypothesis PT : ptrFiles fs = true.
Section Call.
Variable s : struct.
Variable fs0 : amap value.
Variable data more : bytes.
Variable args : list value.
Hypothesis VC : validCall camel fs r s fs0 (data ++ more) args.
Hypothesis SD : selfDelimiting r s.
Notation cenv := (contextsOf s args).
Lemma start_call : validCall camel fs r s fs0 data args.
Proof.
  constructor; try apply VC. destruct (vc_data _ _ _ _ _ _ _ VC) as [A B]. split.
  - unfold all_bytes in *. apply Forall_app in A. tauto.
  - unfold blen in *. rewrite app_length in B. lia.
Qed.
Lemma start_pre : forall n, pre more (decStruct camel r n s fs0 cenv data) (decStruct camel r n s fs0 cenv (data ++ more)).
Proof.
  intros n. apply struct_pre; auto.
  - intros nm s' HS HE. split; [eapply str_check; eauto|]. apply (ptr_struct fs PT). eapply str_defines; eauto.
  - apply (vc_data _ _ _ _ _ _ _ VC).
  - eapply vc_check; eauto.
  - apply (ptr_struct fs PT). apply VC.
Qed.

Lemma start_parses : forall fs1 rest, parses camel p s fs0 (data ++ more) args fs1 rest ->
  (exists rest0, rest = rest0 ++ more /\ parses camel p s fs0 data args fs1 rest0) \/
  (blen rest < blen more /\ exists e, tooShort e /\ fails camel p s fs0 data args e).
Proof.
  intros fs1 rest H. apply (parses_dec camel os fs r p PK _ _ _ _ VC) in H as [n H]. pose proof (start_pre n) as P. rewrite H in P.
  destruct (decStruct camel r n s fs0 cenv data) as [[a c]|x|m|] eqn:E; cbn [pre] in P; try discriminate.
  - left. injection P as <- ->. exists c. split; auto. apply (parses_dec camel os fs r p PK _ _ _ _ start_call). eauto.
  - right. destruct P as [P|[S P]]; [discriminate|]. split; [eapply P; eauto|]. exists x. split; [exact S|].
    apply (fails_dec camel os fs r p PK _ _ _ _ start_call). eauto.
Qed.
Lemma start_fails : forall e, fails camel p s fs0 data args e -> ~ tooShort e -> fails camel p s fs0 (data ++ more) args e.
Proof.
  intros e H N. apply (fails_dec camel os fs r p PK _ _ _ _ start_call) in H as [n H]. pose proof (start_pre n) as P. rewrite H in P. cbn [pre] in P.
  destruct P as [P|[S _]]; [|exfalso; apply N; exact S]. apply (fails_dec camel os fs r p PK _ _ _ _ VC). eauto.
Qed.
Lemma start_panics : forall m, panics camel p s fs0 data args m -> panics camel p s fs0 (data ++ more) args m.
Proof.
  intros m H. apply (panics_dec camel os fs r p PK _ _ _ _ start_call) in H as [n H]. pose proof (start_pre n) as P. rewrite H in P. cbn [pre] in P.
  apply (panics_dec camel os fs r p PK _ _ _ _ VC). eauto.
Qed.
End Call.
End Pack.

(** If Parse accepts the data, then on a beginning of the data it gives the same
    value, unless the beginning lacks some of the bytes that were taken: then it
    says so. *)
Theorem C69_beginning : forall camel os fs r p, package camel os fs r p -> ptrFiles fs = true ->
  forall s fs0 data more args, validCall camel fs r s fs0 (data ++ more) args -> selfDelimiting r s ->
  forall fs1 rest, parses camel p s fs0 (data ++ more) args fs1 rest ->
  (exists rest0, rest = rest0 ++ more /\ parses camel p s fs0 data args fs1 rest0) \/
  (blen rest < blen more /\ exists e, tooShort e /\ fails camel p s fs0 data args e).
Proof. exact start_parses. Qed.
Print Assumptions C69_beginning.

(** Any other error is final: more data does not help. *)
Theorem C69_final_errors : forall camel os fs r p, package camel os fs r p -> ptrFiles fs = true ->
  forall s fs0 data more args, validCall camel fs r s fs0 (data ++ more) args -> selfDelimiting r s ->
  forall e, fails camel p s fs0 data args e -> ~ tooShort e -> fails camel p s fs0 (data ++ more) args e.
Proof. exact start_fails. Qed.
Print Assumptions C69_final_errors.

(** No message is the beginning of another one. *)
Theorem C69_prefix_free : forall camel os fs r p, package camel os fs r p -> ptrFiles fs = true ->
  forall s fs0 data more args, validCall camel fs r s fs0 (data ++ more) args -> selfDelimiting r s ->
  forall fs1 fs2, parses camel p s fs0 data args fs1 [] -> parses camel p s fs0 (data ++ more) args fs2 [] -> more = [].
Proof.
  intros camel os fs r p PK PT s fs0 data more args VC SD fs1 fs2 H1 H2.
  pose proof (longer camel os fs r p PK s fs0 data args (start_call _ _ _ _ _ _ _ _ VC) fs1 [] PT H1 more (vc_data _ _ _ _ _ _ _ VC) SD) as H3.
  cbn [app] in H3. destruct H2 as [a H2], H3 as [b H3]. specialize (H2 (a + b)%nat ltac:(lia)). specialize (H3 (a + b)%nat ltac:(lia)). congruence.
Qed.
Print Assumptions C69_prefix_free.

(** A message, a part of it and a message with a bad count. *)
Example C69_case : ptrFiles demo = true /\ selfDelimiting demoR msg /\
  validCall camelX demo demoR msg (blank camelX (Constant demoR) msg) (msgBytes ++ msgRest) [optsV 2] /\
  parses camelX demoP msg (blank camelX (Constant demoR) msg) (msgBytes ++ msgRest) [optsV 2] msgFields msgRest /\
  fails camelX demoP msg (blank camelX (Constant demoR) msg) (firstn 10 msgBytes) [optsV 2] "data too short" /\
  fails camelX demoP msg (blank camelX (Constant demoR) msg) [4; 0; 5] [optsV 2] "integer constraint violated".
Proof.
  split; [exact demo_ptr|]. split; [exact msg_selfDelimiting|]. split; [exact (msg_call _ 2 msg_bytes ltac:(lia))|]. split; [exact msg_parses|].
  split; [apply (fails_dec camelX osX demo demoR demoP demo_package _ _ _ _ (msg_call (firstn 10 msgBytes) 2 ltac:(apply bytes_ok; vm_compute; reflexivity) ltac:(lia))); exists 5%nat; vm_compute; reflexivity|].
  apply (fails_dec camelX osX demo demoR demoP demo_package _ _ _ _ (msg_call [4; 0; 5] 2 ltac:(apply bytes_ok; vm_compute; reflexivity) ltac:(lia))).
  exists 5%nat. vm_compute. reflexivity.
Qed.

(** The converse is false: the error may be about the bytes that a length field
    grants to a union, and then more data does not help. *)
Lemma byte_more : forall r x t, decInt r 8 None (x :: t) = Ok (VInt (be [x]), t).
Proof.
  intros r x t. unfold decInt. change (8 / 8) with 1. unfold blen. cbn [List.length]. destruct (Z.ltb_spec (Z.of_nat (S (List.length t))) 1); [lia|]. reflexivity.
Qed.
Theorem C69_short_refuted : exists camel os fs r p s fs0 data args e, package camel os fs r p /\ ptrFiles fs = true /\ selfDelimiting r s /\
  tooShort e /\ validCall camel fs r s fs0 data args /\
  forall more, goBytes (data ++ more) -> fails camel p s fs0 (data ++ more) args e.
Proof.
  exists camelX, osX, demo, demoR, demoP, msg, (blank camelX (Constant demoR) msg), [2; 0], [optsV 2], "could not parse nul-term string".
  split; [exact demo_package|]. split; [exact demo_ptr|]. split; [exact msg_selfDelimiting|]. split; [right; reflexivity|].
  split; [exact (msg_call [2; 0] 2 ltac:(apply bytes_ok; vm_compute; reflexivity) ltac:(lia))|]. intros more B.
  apply (fails_dec camelX osX demo demoR demoP demo_package _ _ _ _ (msg_call _ 2 B ltac:(lia))). exists 5%nat.
  cbn [app decStruct]. set (ce := contextsOf msg [optsV 2]). set (f0 := blank camelX (Constant demoR) msg). set (d := blen (2 :: 0 :: more)).
  change (members_of msg) with (u8 "tag" :: u8 "len" :: MField "pos" TPtr :: body :: skipn 4 (members_of msg)).
  generalize (skipn 4 (members_of msg)) as later. intros later. unfold u8. cbn [decMembers decMember decType decBase].
  rewrite byte_more. cbn [bind]. rewrite byte_more. cbn [bind].
  match goal with |- (_ <- ?X ;; _) = _ => assert (E : X = Err "could not parse nul-term string"); [|rewrite E; reflexivity] end.
  unfold body. rewrite (decMember_union camelX demoR _ _ _ (2 :: 0 :: more)). cbn zeta. cbn [decConstr].
  match goal with |- context [refVal camelX ?f ce (local "len")] => assert (E : refVal camelX f ce (local "len") = Ok 0) by (vm_compute; reflexivity);
    assert (E2 : refVal camelX f ce (local "tag") = Ok 2) by (vm_compute; reflexivity) end.
  rewrite E. cbn [bind]. change (s64 0) with 0. unfold decWithin. destruct (Z.ltb_spec (blen more) 0) as [L|L]; [unfold blen in L; lia|].
  change (0 <? 0) with false. cbn iota. change (Z.to_nat 0) with O. cbn [firstn]. rewrite E2. reflexivity.
Qed.
Print Assumptions C69_short_refuted.
