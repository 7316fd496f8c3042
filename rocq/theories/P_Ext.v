(** C76: loosened declarations. *)
From Coq Require Import ZArith String List Bool Lia ZifyBool ZifyNat.
From Verif Require Import Base Ast IntervalsModel InspectModel InspectSpec InspectProofs GoLang GenModel GenDecode GenCheck GenSimBody WireSpec WireProofs WireComplete WireFacts GenTerm
  PackageSpec PackageProofs PackageFacts SameSpec SameProofs ExtSpec ExtProofs GenExamples.
Import ListNotations.
Open Scope string_scope.
Open Scope list_scope.
Open Scope Z_scope.

Section Two.
Variable gone : string -> Prop.
Variable camel : string -> string.
Variable os os' : nat -> orders.
Variable fs fs' : list file.
Variable r r' : resolver.
Variable p p' : program.
Hypothesis PK : package camel os fs r p.
Hypothesis PK' : package camel os' fs' r' p'.
Notation cv := (Constant r).
Notation cv' := (Constant r').
Hypothesis EXT : extended gone cv cv' fs fs'.

Lemma ext_found : forall nm s, Struct r nm = Some s -> Extern s = false ->
  checkStruct camel r s = true /\ exists s', Struct r' nm = Some s' /\ checkStruct camel r' s' = true /\ extStruct gone cv cv' s s'.
Proof.
  intros nm s HS HE. split; [eapply str_check; eauto|]. destruct (str_defines camel os fs r p PK nm s HS HE) as [[_ (f & If & Is)] N].
  destruct (ext_structs _ _ _ _ _ EXT f s If Is HE) as (f' & s' & If' & Is' & SS). exists s'.
  assert (HS' : Struct r' nm = Some s').
  { destruct SS as (E1 & _ & X & _). apply (pk_struct camel os' fs' r' p' PK' nm s' X). split; [|congruence]. apply (defines_in fs' s'). split; eauto. }
  split; auto. split; auto. eapply str_check; eauto. apply SS.
Qed.
Lemma ext_context : forall x c, Context r x = Some c -> Context r' x = Some c.
Proof.
  intros x c H. destruct PK as [V R _ _], PK' as [V' R' _ _]. destruct (addFiles_answers _ _ _ _ _ V R) as (_ & A & _). destruct (addFiles_answers _ _ _ _ _ V' R') as (_ & A' & _).
  apply A in H as [H|(f & I & J & N)]; [discriminate|]. destruct (ext_contexts _ _ _ _ _ EXT f c I J) as (f' & I' & J'). apply A'. right. eauto.
Qed.
Variable s s' : struct.
Hypothesis SS : extStruct gone cv cv' s s'.
Lemma ext_args : forall args, ctxValues camel r s args -> ctxValues camel r' s' args.
Proof.
  intros args A. unfold ctxValues in *. destruct SS as (_ & <- & _). induction A as [|x v xs vs (c & E & V) A IH]; constructor; auto.
  exists c. split; auto. now apply ext_context.
Qed.
Variable fs0 fs0' : amap value.
Variable data : bytes.
Variable args : list value.
Hypothesis VC : validCall camel fs r s fs0 data args.
Hypothesis VC' : validCall camel fs' r' s' fs0' data args.
Hypothesis HF : holdsFields fs0 fs0'.
Lemma ext_dec : forall n, rel gone holdsFields (decStruct camel r n s fs0 (contextsOf s args) data) (decStruct camel r' n s' fs0' (contextsOf s' args) data).
Proof.
  intros n. replace (contextsOf s' args) with (contextsOf s args) by (unfold contextsOf; destruct SS as (_ & -> & _); reflexivity).
  apply (ext_struct gone camel r r' ext_found); auto. eapply vc_check; eauto.
Qed.
Lemma ext_parses : forall fs1 rest, parses camel p s fs0 data args fs1 rest -> exists fs1', parses camel p' s' fs0' data args fs1' rest /\ holdsFields fs1 fs1'.
Proof.
  intros fs1 rest H. apply (parses_dec camel os fs r p PK _ _ _ _ VC) in H as [n H]. pose proof (ext_dec n) as D. rewrite H in D. destruct D as (fs1' & E & HH).
  exists fs1'. split; auto. apply (parses_dec camel os' fs' r' p' PK' _ _ _ _ VC'). eauto.
Qed.
Lemma ext_fails : forall e, fails camel p s fs0 data args e -> ~ (gone e /\ refusal e) -> fails camel p' s' fs0' data args e.
Proof.
  intros e H N. apply (fails_dec camel os fs r p PK _ _ _ _ VC) in H as [n H]. pose proof (ext_dec n) as D. rewrite H in D. destruct D as [D|D]; [contradiction|].
  apply (fails_dec camel os' fs' r' p' PK' _ _ _ _ VC'). eauto.
Qed.
Lemma ext_stuck : forall n, decStruct camel r n s fs0 (contextsOf s args) data <> Panic "ill-typed".
Proof. intros n H. apply (proj1 (never_stuck camel os fs r p PK _ _ _ _ VC n)). now apply (run_panic camel os fs r p PK _ _ _ _ VC). Qed.
Lemma ext_panics : forall m, panics camel p s fs0 data args m -> panics camel p' s' fs0' data args m.
Proof.
  intros m H. apply (panics_dec camel os fs r p PK _ _ _ _ VC) in H as [n H]. pose proof (ext_dec n) as D. pose proof (ext_stuck n) as X. rewrite H in D, X. destruct D as [->|D]; [contradiction|].
  apply (panics_dec camel os' fs' r' p' PK' _ _ _ _ VC'). eauto.
Qed.
Lemma ext_never : neverEnds camel p s fs0 data args -> neverEnds camel p' s' fs0' data args.
Proof.
  intros H n. specialize (H n). apply (run_fuel camel os fs r p PK _ _ _ _ VC) in H. apply (run_fuel camel os' fs' r' p' PK' _ _ _ _ VC'). pose proof (ext_dec n) as D. rewrite H in D. exact D.
Qed.
Lemma ext_back : forall fs1' rest, parses camel p' s' fs0' data args fs1' rest ->
  (exists fs1, parses camel p s fs0 data args fs1 rest /\ holdsFields fs1 fs1') \/ exists e, fails camel p s fs0 data args e /\ gone e /\ refusal e.
Proof.
  intros fs1' rest H. apply (parses_dec camel os' fs' r' p' PK' _ _ _ _ VC') in H as [n H]. pose proof (ext_dec n) as D. pose proof (ext_stuck n) as X. rewrite H in D.
  destruct (decStruct camel r n s fs0 (contextsOf s args) data) as [[fs1 c1]|e|m|] eqn:E; cbn [rel] in D.
  - destruct D as (b & D & HH). injection D as <- <-. left. exists fs1. split; auto. apply (parses_dec camel os fs r p PK _ _ _ _ VC). eauto.
  - destruct D as [D|D]; [|discriminate]. right. exists e. split; auto. apply (fails_dec camel os fs r p PK _ _ _ _ VC). eauto.
  - destruct D as [->|D]; [contradiction|discriminate].
  - discriminate.
Qed.
End Two.

(** C76. When lists of allowed integers are made larger and refused tags get
    cases, everything that was parsed is still parsed: to the same fields, which may
    be joined by new ones, with the same rest.  [gone] says which of the two errors
    may go away: lists stay as they are without the one, refused tags without the other. *)
Theorem C76_still_parsed : forall gone camel os os' fs fs' r r' p p', package camel os fs r p -> package camel os' fs' r' p' ->
  extended gone (Constant r) (Constant r') fs fs' ->
  forall s s', extStruct gone (Constant r) (Constant r') s s' ->
  forall fs0 fs0' data args, validCall camel fs r s fs0 data args -> validCall camel fs' r' s' fs0' data args -> holdsFields fs0 fs0' ->
  forall fs1 rest, parses camel p s fs0 data args fs1 rest -> exists fs1', parses camel p' s' fs0' data args fs1' rest /\ holdsFields fs1 fs1'.
Proof. intros gone camel os os' fs fs' r r' p p' PK PK' EXT s s' SS fs0 fs0' data args VC VC' HF. exact (ext_parses gone camel os os' fs fs' r r' p p' PK PK' EXT s s' SS fs0 fs0' data args VC VC' HF). Qed.
Print Assumptions C76_still_parsed.
(** Of what did not parse, only what was refused for an integer or a tag can
    end otherwise. *)
Theorem C76_only_refused : forall gone camel os os' fs fs' r r' p p', package camel os fs r p -> package camel os' fs' r' p' ->
  extended gone (Constant r) (Constant r') fs fs' ->
  forall s s', extStruct gone (Constant r) (Constant r') s s' ->
  forall fs0 fs0' data args, validCall camel fs r s fs0 data args -> validCall camel fs' r' s' fs0' data args -> holdsFields fs0 fs0' ->
  (forall e, fails camel p s fs0 data args e -> ~ gone e \/ e <> "integer constraint violated" /\ e <> "disallowed case" -> fails camel p' s' fs0' data args e) /\
  (forall m, panics camel p s fs0 data args m -> panics camel p' s' fs0' data args m) /\
  (neverEnds camel p s fs0 data args -> neverEnds camel p' s' fs0' data args).
Proof.
  intros gone camel os os' fs fs' r r' p p' PK PK' EXT s s' SS fs0 fs0' data args VC VC' HF. split; [|split].
  - intros e F N. apply (ext_fails gone camel os os' fs fs' r r' p p' PK PK' EXT s s' SS fs0 fs0' data args VC VC' HF); auto. intros [G [->| ->]]; tauto.
  - intros m P. apply (ext_panics gone camel os os' fs fs' r r' p p' PK PK' EXT s s' SS fs0 fs0' data args VC VC' HF); auto.
  - intros P. apply (ext_never gone camel os os' fs fs' r r' p p' PK PK' EXT s s' SS fs0 fs0' data args VC VC' HF); auto.
Qed.
Print Assumptions C76_only_refused.
(** The other way round: what parses now either parsed before, to the same
    fields, or was refused. *)
Theorem C76_parsed_before : forall gone camel os os' fs fs' r r' p p', package camel os fs r p -> package camel os' fs' r' p' ->
  extended gone (Constant r) (Constant r') fs fs' ->
  forall s s', extStruct gone (Constant r) (Constant r') s s' ->
  forall fs0 fs0' data args, validCall camel fs r s fs0 data args -> validCall camel fs' r' s' fs0' data args -> holdsFields fs0 fs0' ->
  forall fs1' rest, parses camel p' s' fs0' data args fs1' rest ->
  (exists fs1, parses camel p s fs0 data args fs1 rest /\ holdsFields fs1 fs1') \/
  exists e, gone e /\ (e = "integer constraint violated" \/ e = "disallowed case") /\ fails camel p s fs0 data args e.
Proof.
  intros gone camel os os' fs fs' r r' p p' PK PK' EXT s s' SS fs0 fs0' data args VC VC' HF fs1' rest P.
  destruct (ext_back gone camel os os' fs fs' r r' p p' PK PK' EXT s s' SS fs0 fs0' data args VC VC' HF fs1' rest P) as [H|(e & F & G & R)]; eauto.
Qed.
Print Assumptions C76_parsed_before.
(** A fresh value will do as receiver on both sides, with the same arguments. *)
Theorem C76_fresh : forall gone camel os os' fs fs' r r' p p', package camel os fs r p -> package camel os' fs' r' p' ->
  extended gone (Constant r) (Constant r') fs fs' ->
  forall s s', defines fs s -> defines fs' s' -> extStruct gone (Constant r) (Constant r') s s' ->
  forall data args, ctxValues camel r s args -> goBytes data ->
  validCall camel fs r s (blank camel (Constant r) s) data args /\ validCall camel fs' r' s' (blank camel (Constant r') s') data args /\
  holdsFields (blank camel (Constant r) s) (blank camel (Constant r') s').
Proof.
  intros gone camel os os' fs fs' r r' p p' PK PK' EXT s s' D D' SS data args CV B. split; [|split].
  - constructor; auto. eapply blank_goStruct; eauto. now apply defines_in.
  - constructor; auto; [|eapply blank_goStruct; eauto; now apply (defines_in fs')]. apply (ext_args gone camel os os' fs fs' r r' p p' PK PK' EXT s s' SS); auto.
  - apply (ext_new gone); auto. eapply pk_check; eauto. now apply (defines_in fs').
Qed.
Print Assumptions C76_fresh.
(** Cases stay and cases are added for refused tags: this is an extension. *)
Theorem C76_more_cases : forall (gone : string -> Prop) r r' u u' tag len len' cs cs', gone "disallowed case" -> sameLengths (Constant r) (Constant r') len len' -> one_default cs ->
  extCases gone (Constant r) (Constant r') (refused (Constant r) cs) cs cs' -> extM gone (Constant r) (Constant r') (MUnion u tag len cs) (MUnion u' tag len' cs').
Proof. exact cases_union. Qed.
Print Assumptions C76_more_cases.

(** The example of GenExamples.v with [LIMIT = 5], [count IN [0..4, 7]], with the case [9] no longer refused
    but with members [u8 nine; struct point centre;], and one more struct. *)
Definition msg5 : struct :=
  mkStruct "msg" ["opts"] (Some
    [u8 "tag"; u8 "len"; MField "pos" TPtr;
     MUnion "body" (local "tag") (Some (LRef (local "len")))
       [UCase (is 1) [MField "p" (TStruct "point"); MField "q" (TStruct "point")];
        UCase (is 2) [MField "name" TNul];
        UCase (is 9) [u8 "nine"; MField "centre" (TStruct "point")];
        UCase (is 3) [MField "words" (TVar (TInt 16 None) None)];
        UCase (is 9) [MFail];
        UCase None [MIgnore]];
     MField "count" (TInt 8 (Some [mkRange (ILit 0) (Some (ILit 4)); mkRange (ILit 7) None]));
     MField "pts" (TVar (TStruct "point") (Some (LRef (local "count"))));
     MField "pair" (TFixed (TInt 16 None) (ILit 2));
     MField "more" (TVar (TInt 8 None) (Some (LRef (mkRef "opts" "extra"))))]).
Definition demo5 : list file :=
  [mkFile [mkConst "LIMIT" 5] [mkCtx "opts" [("extra", TInt 8 None)]] [point; msg5; tail; mkStruct "other" [] (Some [u8 "o"])] []].
Definition demo5R := theRes demo5.
Lemma demo5_package : package camelX osX demo5 demo5R (theProg demo5).
Proof. apply package_of. vm_compute. reflexivity. Qed.
Lemma looser5 : forall l l', (forall x, inList demoR x l = true -> inList demo5R x l' = true) -> looser (Constant demoR) (Constant demo5R) (Some l) (Some l').
Proof. intros l l' H x I. cbn [allows] in *. apply inList_spec. apply inList_spec in I. auto. Qed.
Lemma same5 : forall n, sameLists (Constant demoR) (Constant demo5R) (is n) (is n).
Proof.
  intros n. cbn [sameLists is]. intros x. rewrite <- !inList_spec. change (inList demo5R x [mkRange (ILit n) None]) with (inList demoR x [mkRange (ILit n) None]). tauto.
Qed.
Lemma default1 : one_default bodyCases.
Proof.
  intros l1 c l2 d l3 E H1 H2. unfold bodyCases in E.
  repeat (destruct l1 as [|? l1]; cbn [app] in E; [injection E as <- E; try (discriminate H1)|injection E as _ E]).
  - destruct l2; discriminate.
  - destruct l1; discriminate.
Qed.
Lemma any5 : forall sz, extT refusal (Constant demoR) (Constant demo5R) (TInt sz None) (TInt sz None).
Proof. intros sz. constructor; [intros ? ?; exact I|]. left. left. reflexivity. Qed.
Lemma more5 : forall sz o o', looser (Constant demoR) (Constant demo5R) o o' -> extT refusal (Constant demoR) (Constant demo5R) (TInt sz o) (TInt sz o').
Proof. intros sz o o' L. constructor; auto. left. left. reflexivity. Qed.
Ltac ext_field := constructor; apply any5.
Ltac keeps := intros nm t H; cbn in H; repeat (destruct H as [H|H]; [injection H as <- <-; eexists; split; [cbn; tauto|]|]); [..|destruct H].
Lemma point_ext : extStruct refusal (Constant demoR) (Constant demo5R) point point.
Proof.
  assert (L : looser (Constant demoR) (Constant demo5R) (Some [mkRange (ILit 1) (Some (IConst "LIMIT"))]) (Some [mkRange (ILit 1) (Some (IConst "LIMIT"))])).
  { apply looser5. intros x. change (((1 <=? x) && (x <=? 3)) || false = true -> ((1 <=? x) && (x <=? 5)) || false = true). lia. }
  split; [reflexivity|]. split; [reflexivity|]. split; [reflexivity|]. cbn [members_of point smembers]. split.
  - constructor; [ext_field|]. constructor; [|constructor]. constructor. now apply more5.
  - keeps; apply more5; auto. intros ? ?; exact I.
Qed.
Lemma tail_ext : extStruct refusal (Constant demoR) (Constant demo5R) tail tail.
Proof.
  split; [reflexivity|]. split; [reflexivity|]. split; [reflexivity|]. cbn [members_of tail smembers].
  assert (L : extT refusal (Constant demoR) (Constant demo5R) (TVar (TInt 8 None) (Some (LLeftover (ILit 1)))) (TVar (TInt 8 None) (Some (LLeftover (ILit 1))))).
  { constructor; [apply any5|]. exists 1. split; reflexivity. }
  split.
  - constructor; [ext_field|]. constructor; [now constructor|]. constructor; [ext_field|]. repeat constructor.
  - keeps; auto; apply any5.
Qed.
Lemma msg_ext : extStruct refusal (Constant demoR) (Constant demo5R) msg msg5.
Proof.
  split; [reflexivity|]. split; [reflexivity|]. split; [reflexivity|]. cbn [members_of msg msg5 smembers].
  assert (L8 : extT refusal (Constant demoR) (Constant demo5R) (TInt 8 None) (TInt 8 None)) by apply any5.
  assert (L16 : extT refusal (Constant demoR) (Constant demo5R) (TInt 16 None) (TInt 16 None)) by apply any5.
  assert (LC : extT refusal (Constant demoR) (Constant demo5R) (TInt 8 (Some [mkRange (ILit 0) (Some (ILit 4))])) (TInt 8 (Some [mkRange (ILit 0) (Some (ILit 4)); mkRange (ILit 7) None]))).
  { apply more5. apply looser5. intros x. change (((0 <=? x) && (x <=? 4)) || false = true -> ((0 <=? x) && (x <=? 4)) || (((7 <=? x) && (x <=? 7)) || false) = true). lia. }
  assert (LP : extT refusal (Constant demoR) (Constant demo5R) (TFixed (TInt 16 None) (ILit 2)) (TFixed (TInt 16 None) (ILit 2))).
  { constructor; auto. exists 2. split; reflexivity. }
  assert (LW : extT refusal (Constant demoR) (Constant demo5R) (TVar (TInt 16 None) None) (TVar (TInt 16 None) None)) by (constructor; cbn; auto).
  assert (LS : forall n, extT refusal (Constant demoR) (Constant demo5R) (TStruct n) (TStruct n)) by constructor.
  assert (LV : extT refusal (Constant demoR) (Constant demo5R) (TVar (TStruct "point") (Some (LRef (local "count")))) (TVar (TStruct "point") (Some (LRef (local "count"))))).
  { constructor; auto. reflexivity. }
  assert (LM : extT refusal (Constant demoR) (Constant demo5R) (TVar (TInt 8 None) (Some (LRef (mkRef "opts" "extra")))) (TVar (TInt 8 None) (Some (LRef (mkRef "opts" "extra"))))).
  { constructor; auto. reflexivity. }
  split.
  - constructor; [now constructor|]. constructor; [now constructor|]. constructor; [constructor; constructor|]. constructor.
    { apply C76_more_cases; [right; reflexivity|reflexivity|exact default1|]. unfold bodyCases at 2.
      apply ExtC_stays; [apply same5|right; repeat constructor|]. apply ExtC_stays; [apply same5|right; repeat constructor|].
      apply ExtC_new.
      { intros x H. apply inList_spec in H. change (((9 <=? x) && (x <=? 9)) || false = true) in H. assert (x = 9) as -> by lia.
        exists (UCase (is 9) [MFail]). split; [|now exists []]. left. exists (firstn 3 bodyCases), [UCase None [MIgnore]]. split; [reflexivity|]. split.
        - exists [mkRange (ILit 9) None]. split; [reflexivity|]. apply inList_spec. reflexivity.
        - repeat constructor; intros (l & E & H1); injection E as <-; apply inList_spec in H1; discriminate H1. }
      apply ExtC_stays; [apply same5|right; constructor; [now constructor|constructor]|]. apply ExtC_stays; [apply same5|left; split; [right; reflexivity|now exists []]|].
      apply ExtC_stays; [exact I|right; repeat constructor|]. constructor. }
    repeat (constructor; [now constructor|]). constructor.
  - keeps; auto; constructor.
Qed.
Lemma demo_extended : extended refusal (Constant demoR) (Constant demo5R) demo demo5.
Proof.
  constructor.
  - intros f s If Is X. assert (D : defines demo s) by (split; eauto). eexists.
    apply demo_structs in D as [->|[->| ->]]; [exists point|exists msg5|exists tail]; (split; [left; reflexivity|]); cbn [fstructs];
      (split; [cbn; auto|]); [exact point_ext|exact msg_ext|exact tail_ext].
  - intros f c [<-|[]] [<-|[]]. eexists. split; [left; reflexivity|]. now left.
Qed.
Lemma demo5_msg : defines demo5 msg5.
Proof. split; [reflexivity|]. eexists. split; [left; reflexivity|]. cbn. auto. Qed.
(** The message of GenExamples.v is parsed by the new parser too, and one that was
    refused is parsed now. *)
Example C76_case : exists fs1, parses camelX (theProg demo5) msg5 (blank camelX (Constant demo5R) msg5) (msgBytes ++ msgRest) [optsV 2] fs1 msgRest /\ holdsFields msgFields fs1.
Proof.
  pose proof (msg_call _ 2 msg_bytes ltac:(lia)) as VC.
  destruct (C76_fresh refusal camelX osX osX demo demo5 demoR demo5R demoP (theProg demo5) demo_package demo5_package demo_extended msg msg5 demo_msg demo5_msg msg_ext _ _ (vc_args _ _ _ _ _ _ _ VC) msg_bytes) as (_ & VC' & HF).
  exact (C76_still_parsed refusal camelX osX osX demo demo5 demoR demo5R demoP (theProg demo5) demo_package demo5_package demo_extended msg msg5 msg_ext _ _ _ _ VC VC' HF _ _ msg_parses).
Qed.
Definition newBytes : bytes := [9; 3; 1; 6; 5; 0; 0; 8; 1; 0].
Lemma new_bytes : goBytes newBytes.
Proof. apply bytes_ok; vm_compute; reflexivity. Qed.
Example C76_case_refused : fails camelX demoP msg (blank camelX (Constant demoR) msg) newBytes [optsV 0] "disallowed case" /\
  exists fs1, parses camelX (theProg demo5) msg5 (blank camelX (Constant demo5R) msg5) newBytes [optsV 0] fs1 [].
Proof.
  pose proof (msg_call _ 0 new_bytes ltac:(lia)) as VC. split.
  - apply (fails_dec camelX osX demo demoR demoP demo_package _ _ _ _ VC). exists 6%nat. vm_compute. reflexivity.
  - destruct (C76_fresh refusal camelX osX osX demo demo5 demoR demo5R demoP (theProg demo5) demo_package demo5_package demo_extended msg msg5 demo_msg demo5_msg msg_ext _ _ (vc_args _ _ _ _ _ _ _ VC) new_bytes) as (_ & VC' & _).
    eexists. apply (parses_dec camelX osX demo5 demo5R (theProg demo5) demo5_package _ _ _ _ VC'). exists 6%nat. vm_compute. reflexivity.
Qed.
