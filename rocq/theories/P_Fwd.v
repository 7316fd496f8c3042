(** C77: messages of newer declarations are read by parsers of older ones. *)
From Coq Require Import ZArith String List Bool Lia ZifyBool ZifyNat.
From Verif Require Import Base Ast IntervalsModel InspectModel InspectSpec InspectProofs GoLang GenModel GenDecode GenCheck GenSim GenSimBody GenSimProg WireSpec WireProofs WireComplete WireFacts GenTerm ReachProofs
  PackageSpec PackageProofs PackageFacts SameSpec SameProofs ExtSpec ExtProofs FwdSpec FwdProofs GenExamples GenWitness.
Import ListNotations.
Open Scope string_scope.
Open Scope list_scope.
Open Scope Z_scope.

Section Two.
Variable camel : string -> string.
Variable os os' : nat -> orders.
Variable fs fs' : list file.
Variable r r' : resolver.
Variable p p' : program.
Hypothesis PK : package camel os fs r p.
Hypothesis PK' : package camel os' fs' r' p'.
Notation cv := (Constant r).
Notation cv' := (Constant r').
Variable used : string -> Prop.
Hypothesis OLD : older camel cv cv' used fs fs'.

Lemma older_found : forall nm s, used nm -> Struct r nm = Some s -> Extern s = false ->
  checkStruct camel r s = true /\ exists s', Struct r' nm = Some s' /\ checkStruct camel r' s' = true /\ olderStruct camel cv cv' used [] s s'.
Proof.
  intros nm s U HS HE. split; [eapply str_check; eauto|]. destruct (str_defines camel os fs r p PK nm s HS HE) as [[_ (f & If & Is)] N]. subst nm.
  destruct (older_structs _ _ _ _ _ _ OLD f s If Is HE U) as (f' & s' & If' & Is' & SS). exists s'.
  assert (HS' : Struct r' (sname s) = Some s').
  { destruct SS as (E1 & _ & X & _). apply (pk_struct camel os' fs' r' p' PK' _ s' X). split; [|congruence]. apply (defines_in fs' s'). split; eauto. }
  split; auto. split; auto. eapply str_check; eauto. apply SS.
Qed.
Lemma older_context : forall x c, Context r x = Some c -> Context r' x = Some c.
Proof.
  intros x c H. destruct PK as [V R _ _], PK' as [V' R' _ _]. destruct (addFiles_answers _ _ _ _ _ V R) as (_ & A & _). destruct (addFiles_answers _ _ _ _ _ V' R') as (_ & A' & _).
  apply A in H as [H|(f & I & J & N)]; [discriminate|]. destruct (older_contexts _ _ _ _ _ _ OLD f c I J) as (f' & I' & J'). apply A'. right. eauto.
Qed.
Variable more : list member.
Variable s s' : struct.
Hypothesis SS : olderStruct camel cv cv' used more s s'.
Lemma older_args : forall args, ctxValues camel r s args -> ctxValues camel r' s' args.
Proof.
  intros args A. unfold ctxValues in *. destruct SS as (_ & <- & _). induction A as [|x v xs vs (c & E & V) A IH]; constructor; auto.
  exists c. split; auto. now apply older_context.
Qed.
Lemma recv_keys : forall fs0, goStruct camel r s fs0 -> forall k v, alookup k fs0 = Some v -> In k (map camel (namesOf (members_of s))).
Proof.
  intros fs0 G k v E. apply alookup_some_in in E. unfold goStruct in G. unfold namesOf. revert E. induction G as [|f kv l l' [E1 _] G IH]; intros I; [destruct I|].
  cbn [map]. destruct I as [->|I]; [left; symmetry; exact E1|right; auto].
Qed.
Lemma older_parses : forall fs0 fs0' data args, validCall camel fs r s fs0 data args -> validCall camel fs' r' s' fs0' data args -> holdsFields fs0 fs0' ->
  forall fs1' rest, parses camel p' s' fs0' data args fs1' rest ->
  exists fs1 w, parses camel p s fs0 data args fs1 (w ++ rest) /\ holdsFields fs1 fs1' /\ (more = [] -> w = []).
Proof.
  intros fs0 fs0' data args VC VC' HF fs1' rest H. apply (parses_dec camel os' fs' r' p' PK' _ _ _ _ VC') in H as [n H].
  replace (contextsOf s' args) with (contextsOf s args) in H by (unfold contextsOf; destruct SS as (_ & -> & _); reflexivity).
  destruct (older_struct camel r r' used older_found n more s s' fs0 fs0' (contextsOf s args) data) with (b := fs1') (c' := rest) as [S|(fs1 & c & E & HP & (w & ->) & HE)]; auto.
  - eapply vc_check; eauto.
  - split; auto. apply recv_keys. apply VC.
  - exfalso. apply (proj1 (never_stuck camel os fs r p PK _ _ _ _ VC n)). now apply (run_panic camel os fs r p PK _ _ _ _ VC).
  - exists fs1, w. split; [apply (parses_dec camel os fs r p PK _ _ _ _ VC); eauto|]. split; auto. intros M. specialize (HE M). apply (f_equal (@length Z)) in HE. rewrite app_length in HE. destruct w; auto. cbn in HE. lia.
Qed.
End Two.

(** C77. What a parser of newer declarations accepts is accepted by that of older
    ones, if the newer declarations only add members in place of ignored input and
    at the end of the struct: the older parser finds the same contents in its fields
    and leaves the input for the members at the end. *)
Theorem C77_read_by_older : forall camel os os' fs fs' r r' p p', package camel os fs r p -> package camel os' fs' r' p' ->
  forall used, older camel (Constant r) (Constant r') used fs fs' ->
  forall more s s', olderStruct camel (Constant r) (Constant r') used more s s' ->
  forall fs0 fs0' data args, validCall camel fs r s fs0 data args -> validCall camel fs' r' s' fs0' data args -> holdsFields fs0 fs0' ->
  forall fs1' rest, parses camel p' s' fs0' data args fs1' rest ->
  exists fs1 w, parses camel p s fs0 data args fs1 (w ++ rest) /\ holdsFields fs1 fs1' /\ (more = [] -> w = []).
Proof.
  intros camel os os' fs fs' r r' p p' PK PK' used OLD more s s' SS fs0 fs0' data args VC VC' HF.
  exact (older_parses camel os os' fs fs' r r' p p' PK PK' used OLD more s s' SS fs0 fs0' data args VC VC' HF).
Qed.
Print Assumptions C77_read_by_older.
(** A fresh value will do as receiver on both sides, with the same arguments. *)
Theorem C77_fresh : forall camel os os' fs fs' r r' p p', package camel os fs r p -> package camel os' fs' r' p' ->
  forall used, older camel (Constant r) (Constant r') used fs fs' ->
  forall more s s', defines fs s -> defines fs' s' -> olderStruct camel (Constant r) (Constant r') used more s s' ->
  forall data args, ctxValues camel r s args -> goBytes data ->
  validCall camel fs r s (blank camel (Constant r) s) data args /\ validCall camel fs' r' s' (blank camel (Constant r') s') data args /\
  holdsFields (blank camel (Constant r) s) (blank camel (Constant r') s').
Proof.
  intros camel os os' fs fs' r r' p p' PK PK' used OLD more s s' D D' SS data args CV B. split; [|split].
  - constructor; auto. eapply blank_goStruct; eauto. now apply defines_in.
  - constructor; auto; [|eapply blank_goStruct; eauto; now apply (defines_in fs')]. apply (older_args camel os os' fs fs' r r' p p' PK PK' used OLD more s s' SS); auto.
  - eapply older_new; eauto. eapply pk_check; eauto. now apply (defines_in fs').
Qed.
Print Assumptions C77_fresh.

(** The example of GenExamples.v and a newer version with [LIMIT = 2], with a case [8] in the union in
    place of ignored input, one more field in the default case, and two fields at the end of [msg]. *)
Definition msg6 : struct :=
  mkStruct "msg" ["opts"] (Some
    ([u8 "tag"; u8 "len"; MField "pos" TPtr;
      MUnion "body" (local "tag") (Some (LRef (local "len")))
       [UCase (is 1) [MField "p" (TStruct "point"); MField "q" (TStruct "point")];
        UCase (is 2) [MField "name" TNul];
        UCase (is 3) [MField "words" (TVar (TInt 16 None) None)];
        UCase (is 9) [MFail];
        UCase (is 8) [u16 "eight"; MField "at" (TStruct "point")];
        UCase None [u8 "first"; MIgnore]];
      MField "count" (TInt 8 (Some [mkRange (ILit 0) (Some (ILit 4))]));
      MField "pts" (TVar (TStruct "point") (Some (LRef (local "count"))));
      MField "pair" (TFixed (TInt 16 None) (ILit 2));
      MField "more" (TVar (TInt 8 None) (Some (LRef (mkRef "opts" "extra"))))] ++
     [u16 "version"; MField "note" TNul])).
Definition demo6 : list file :=
  [mkFile [mkConst "LIMIT" 2] [mkCtx "opts" [("extra", TInt 8 None)]] [point; msg6; tail] []].
Definition demo6R := theRes demo6.
Lemma demo6_package : package camelX osX demo6 demo6R (theProg demo6).
Proof. apply package_of. vm_compute. reflexivity. Qed.
(** Cases stay and cases are added for ignored tags: this is a newer union. *)
Theorem C77_more_cases : forall camel r r' used old u u' tag len len' cs cs', sameLengths (Constant r) (Constant r') len len' -> one_default cs ->
  olderCases camel (Constant r) (Constant r') used old (match len with None => false | Some _ => true end) (ignored (Constant r) cs) cs cs' ->
  olderM camel (Constant r) (Constant r') used old (MUnion u tag len cs) (MUnion u' tag len' cs').
Proof. exact older_union. Qed.
Print Assumptions C77_more_cases.

Definition inner (n : string) : Prop := n = "point".
Definition msgNames : list string := namesOf (members_of msg).
Lemma looser6 : forall l l', (forall x, inList demo6R x l' = true -> inList demoR x l = true) -> looser (Constant demo6R) (Constant demoR) (Some l') (Some l).
Proof. intros l l' H x I. cbn [allows] in *. apply inList_spec. apply inList_spec in I. auto. Qed.
Lemma same6 : forall n, sameLists (Constant demoR) (Constant demo6R) (is n) (is n).
Proof.
  intros n. cbn [sameLists is]. intros x. rewrite <- !inList_spec. change (inList demo6R x [mkRange (ILit n) None]) with (inList demoR x [mkRange (ILit n) None]). tauto.
Qed.
Lemma only_default : one_default bodyCases.
Proof.
  intros l1 c l2 d l3 E H1 H2. unfold bodyCases in E.
  repeat (destruct l1 as [|? l1]; cbn [app] in E; [injection E as <- E; try (discriminate H1)|injection E as _ E]).
  - destruct l2; discriminate.
  - destruct l1; discriminate.
Qed.
Lemma fresh_names : forall ms, forallb (fun nm => negb (existsb (String.eqb (camelX nm)) (map camelX msgNames))) (namesOf ms) = true -> fresh camelX msgNames ms.
Proof.
  intros ms H nm I J. rewrite forallb_forall in H. specialize (H nm I). apply negb_true_iff in H. rewrite <- not_true_iff_false in H. apply H. apply existsb_exists. exists (camelX nm). split; auto. apply String.eqb_refl.
Qed.
Ltac keeps6 := intros nm t H; cbn in H; repeat (destruct H as [H|H]; [injection H as <- <-; eexists; split; [cbn; tauto|]|]); [..|destruct H].
Lemma point_older : olderStruct camelX (Constant demoR) (Constant demo6R) inner [] point point.
Proof.
  assert (L : olderT (Constant demoR) (Constant demo6R) inner (TInt 8 (Some [mkRange (ILit 1) (Some (IConst "LIMIT"))])) (TInt 8 (Some [mkRange (ILit 1) (Some (IConst "LIMIT"))]))).
  { constructor. apply looser6. intros x. change (((1 <=? x) && (x <=? 2)) || false = true -> ((1 <=? x) && (x <=? 3)) || false = true). lia. }
  assert (L8 : olderT (Constant demoR) (Constant demo6R) inner (TInt 8 None) (TInt 8 None)) by (constructor; intros ? ?; exact I).
  split; [reflexivity|]. split; [reflexivity|]. split; [reflexivity|]. split; [|split].
  - exists (members_of point). split; [now rewrite app_nil_r|]. unfold members_of at 2 3. cbn [point smembers]. repeat (constructor; [now constructor|]). constructor.
  - intros nm [].
  - keeps6; auto.
Qed.
Lemma msg_older : olderStruct camelX (Constant demoR) (Constant demo6R) inner [u16 "version"; MField "note" TNul] msg msg6.
Proof.
  assert (L8 : olderT (Constant demoR) (Constant demo6R) inner (TInt 8 None) (TInt 8 None)) by (constructor; intros ? ?; exact I).
  assert (L16 : olderT (Constant demoR) (Constant demo6R) inner (TInt 16 None) (TInt 16 None)) by (constructor; intros ? ?; exact I).
  assert (LC : olderT (Constant demoR) (Constant demo6R) inner (TInt 8 (Some [mkRange (ILit 0) (Some (ILit 4))])) (TInt 8 (Some [mkRange (ILit 0) (Some (ILit 4))]))).
  { constructor. apply looser6. intros x. change (inList demo6R x [mkRange (ILit 0) (Some (ILit 4))]) with (inList demoR x [mkRange (ILit 0) (Some (ILit 4))]). auto. }
  assert (LP : olderT (Constant demoR) (Constant demo6R) inner (TFixed (TInt 16 None) (ILit 2)) (TFixed (TInt 16 None) (ILit 2))).
  { constructor; auto. exists 2. split; reflexivity. }
  assert (LW : olderT (Constant demoR) (Constant demo6R) inner (TVar (TInt 16 None) None) (TVar (TInt 16 None) None)) by (constructor; cbn; auto).
  assert (LS : olderT (Constant demoR) (Constant demo6R) inner (TStruct "point") (TStruct "point")) by (constructor; reflexivity).
  assert (LV : olderT (Constant demoR) (Constant demo6R) inner (TVar (TStruct "point") (Some (LRef (local "count")))) (TVar (TStruct "point") (Some (LRef (local "count"))))).
  { constructor; auto. reflexivity. }
  assert (LM : olderT (Constant demoR) (Constant demo6R) inner (TVar (TInt 8 None) (Some (LRef (mkRef "opts" "extra")))) (TVar (TInt 8 None) (Some (LRef (mkRef "opts" "extra"))))).
  { constructor; auto. reflexivity. }
  split; [reflexivity|]. split; [reflexivity|]. split; [reflexivity|]. split; [|split].
  - eexists. split; [reflexivity|]. change (namesOf (members_of msg)) with msgNames. unfold members_of. cbn [msg smembers].
    constructor; [now constructor|]. constructor; [now constructor|]. constructor; [constructor; constructor|]. constructor.
    { apply C77_more_cases; [reflexivity|exact only_default|]. unfold bodyCases at 2.
      apply OlderC_stays; [apply same6|left; repeat (constructor; [now constructor|]); constructor|]. apply OlderC_stays; [apply same6|left; constructor; [constructor; constructor|constructor]|].
      apply OlderC_stays; [apply same6|left; constructor; [now constructor|constructor]|]. apply OlderC_stays; [apply same6|right; now exists []|].
      apply OlderC_new.
      { intros x H. apply inList_spec in H. change (((8 <=? x) && (x <=? 8)) || false = true) in H. assert (x = 8) as -> by lia.
        exists (UCase None [MIgnore]). split; [|reflexivity]. right. split; [|split; [cbn; tauto|reflexivity]].
        repeat constructor; intros (l & E & H1); try discriminate E; injection E as <-; apply inList_spec in H1; discriminate H1. }
      { apply Older_rest. apply fresh_names. vm_compute. reflexivity. }
      apply OlderC_stays; [exact I|left; apply (Older_dots _ _ _ _ _ _ [u8 "first"]); apply fresh_names; vm_compute; reflexivity|]. constructor. }
    repeat (constructor; [now constructor|]). constructor.
  - apply fresh_names. vm_compute. reflexivity.
  - keeps6; auto; constructor.
Qed.
Lemma demo_older : older camelX (Constant demoR) (Constant demo6R) inner demo demo6.
Proof.
  constructor.
  - intros f s If Is X U. assert (D : defines demo s) by (split; eauto). eexists.
    apply demo_structs in D as [->|[->| ->]]; try discriminate U. exists point. split; [left; reflexivity|]. split; [cbn; auto|]. exact point_older.
  - intros f c [<-|[]] [<-|[]]. eexists. split; [left; reflexivity|]. now left.
Qed.
Lemma demo6_msg : defines demo6 msg6.
Proof. split; [reflexivity|]. eexists. split; [left; reflexivity|]. cbn. auto. Qed.
(** A message with tag 8 for the newer parser; the older one ignores the body and leaves
    version, note and rest. *)
Definition msg6Bytes : bytes := [8; 4; 0; 1; 5; 2; 1; 7; 1; 0; 8; 1; 0; 42; 43; 0; 3; 104; 0; 99; 100].
Lemma msg6_bytes : goBytes msg6Bytes.
Proof. apply bytes_ok; vm_compute; reflexivity. Qed.
Example C77_case : exists fs1 fs1',
  parses camelX (theProg demo6) msg6 (blank camelX (Constant demo6R) msg6) msg6Bytes [optsV 2] fs1' msgRest /\
  parses camelX demoP msg (blank camelX (Constant demoR) msg) msg6Bytes [optsV 2] fs1 ([0; 3; 104; 0] ++ msgRest) /\ holdsFields fs1 fs1' /\
  alookup "Eight" fs1' = Some (VInt 1) /\ alookup "Eight" fs1 = None.
Proof.
  pose proof (msg_call _ 2 msg6_bytes ltac:(lia)) as VC.
  destruct (C77_fresh camelX osX osX demo demo6 demoR demo6R demoP (theProg demo6) demo_package demo6_package inner demo_older _ msg msg6 demo_msg demo6_msg msg_older _ _ (vc_args _ _ _ _ _ _ _ VC) msg6_bytes) as (_ & VC' & HF).
  assert (P' : exists fs1', parses camelX (theProg demo6) msg6 (blank camelX (Constant demo6R) msg6) msg6Bytes [optsV 2] fs1' msgRest /\ alookup "Eight" fs1' = Some (VInt 1)).
  { eexists. split; [apply (parses_dec camelX osX demo6 demo6R (theProg demo6) demo6_package _ _ _ _ VC'); exists 6%nat; vm_compute; reflexivity|vm_compute; reflexivity]. }
  destruct P' as (fs1' & P' & A').
  destruct (C77_read_by_older camelX osX osX demo demo6 demoR demo6R demoP (theProg demo6) demo_package demo6_package inner demo_older _ msg msg6 msg_older _ _ _ _ VC VC' HF _ _ P') as (fs1 & w & P & HH & _).
  assert (Q : exists fs2, parses camelX demoP msg (blank camelX (Constant demoR) msg) msg6Bytes [optsV 2] fs2 ([0; 3; 104; 0] ++ msgRest) /\ alookup "Eight" fs2 = None).
  { eexists. split; [apply (parses_dec camelX osX demo demoR demoP demo_package _ _ _ _ VC); exists 6%nat; vm_compute; reflexivity|vm_compute; reflexivity]. }
  destruct Q as (fs2 & Q & A). destruct P as [n P], Q as [n1 Q]. pose proof (P (n + n1)%nat ltac:(lia)) as P1. rewrite (Q (n + n1)%nat ltac:(lia)) in P1. injection P1 as <- E.
  exists fs2, fs1'. split; auto. split; [exists n1; exact Q|]. auto.
Qed.
(** Adding at the end of a struct that is used in another one is not safe:
    [struct in { u8 a; }  struct out { struct in i; u8 b; }], newer with [u8 c] at the end of [in]. *)
Definition inS : struct := mkStruct "in" [] (Some [u8 "a"]).
Definition inS' : struct := mkStruct "in" [] (Some ([u8 "a"] ++ [u8 "c"])).
Definition outS : struct := mkStruct "out" [] (Some [MField "i" (TStruct "in"); u8 "b"]).
Theorem C77_used_refuted : exists fs fs' s fs1 fs1' rest rest' data,
  isPackage fs = true /\ isPackage fs' = true /\
  (forall used, olderStruct camelX (Constant (theRes fs)) (Constant (theRes fs')) used [u8 "c"] inS inS') /\
  validCall camelX fs (theRes fs) s (blank camelX (Constant (theRes fs)) s) data [] /\
  validCall camelX fs' (theRes fs') s (blank camelX (Constant (theRes fs')) s) data [] /\
  parses camelX (theProg fs) s (blank camelX (Constant (theRes fs)) s) data [] fs1 rest /\
  parses camelX (theProg fs') s (blank camelX (Constant (theRes fs')) s) data [] fs1' rest' /\ ~ holdsFields fs1 fs1'.
Proof.
  assert (P : isPackage (one [inS; outS]) = true) by (vm_compute; reflexivity). assert (P' : isPackage (one [inS'; outS]) = true) by (vm_compute; reflexivity).
  assert (GB : goBytes [1; 2; 3]) by (apply bytes_ok; vm_compute; reflexivity).
  pose proof (fresh_call [inS; outS] outS [1; 2; 3] P (or_intror (or_introl eq_refl)) eq_refl eq_refl GB) as VC.
  pose proof (fresh_call [inS'; outS] outS [1; 2; 3] P' (or_intror (or_introl eq_refl)) eq_refl eq_refl GB) as VC'.
  exists (one [inS; outS]), (one [inS'; outS]), outS, [("I", VStruct "In" [("A", VInt 1)]); ("B", VInt 2)], [("I", VStruct "In" [("A", VInt 1); ("C", VInt 2)]); ("B", VInt 3)], [3], [], [1; 2; 3].
  split; auto. split; auto. split.
  { intros used. assert (L8 : olderT (Constant (theRes (one [inS; outS]))) (Constant (theRes (one [inS'; outS]))) used (TInt 8 None) (TInt 8 None)) by (constructor; intros ? ?; exact I).
    split; [reflexivity|]. split; [reflexivity|]. split; [reflexivity|]. split; [|split].
    - exists [u8 "a"]. split; [reflexivity|]. constructor; [now constructor|constructor].
    - intros nm [<-|[]] [H|[]]. discriminate H.
    - keeps6; auto. }
  split; auto. split; auto. split; [|split].
  - apply (parses_dec camelX osX _ _ _ (package_of _ P) _ _ _ _ VC). exists 4%nat. vm_compute. reflexivity.
  - apply (parses_dec camelX osX _ _ _ (package_of _ P') _ _ _ _ VC'). exists 4%nat. vm_compute. reflexivity.
  - intros H. destruct (H "B" (VInt 2) eq_refl) as (v & E & HV). apply holds_int in HV as ->. discriminate E.
Qed.
Print Assumptions C77_used_refuted.
