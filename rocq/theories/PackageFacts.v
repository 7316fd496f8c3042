(** Facts about calls of generated packages. *)
From Coq Require Import ZArith String List Bool Lia ZifyBool ZifyNat.
From Verif Require Import Base Ast IntervalsModel InspectModel InspectSpec InspectProofs BranchProofs GoLang GenModel GenDecode GenCheck
  GenSim GenSimBody GenSimProg WireSpec WireProofs WireComplete GenTerm GenSafe GenMono GenRecv WireFacts ReachSpec ReachProofs PackageSpec PackageProofs.
Import ListNotations.
Open Scope string_scope.
Open Scope list_scope.
Open Scope Z_scope.
Ltac Zify.zify_post_hook ::= Z.div_mod_to_equations.

Section Pack.
Variable camel : string -> string.
Variable os : nat -> orders.
Variable fs : list file.
Variable r : resolver.
Variable p : program.
Hypothesis PK : package camel os fs r p.
Notation cv := (Constant r).
Notation sv := (Struct r).

Section Call.
Variable s : struct.
Variable fs0 : amap value.
Variable data : bytes.
Variable args : list value.
Hypothesis VC : validCall camel fs r s fs0 data args.
Notation cenv := (contextsOf s args).
Notation T := (camel (sname s)).
Notation run n := (runParse camel p n s fs0 data args).
Notation dec n := (decStruct camel r n s fs0 cenv data).

Lemma vc_in : In s (definedStructs fs).
Proof. apply defines_in, VC. Qed.
Lemma vc_check : checkStruct camel r s = true.
Proof. eapply pk_check; [exact PK|apply vc_in]. Qed.
Lemma vc_run : forall n, ends (run n) T (dec n).
Proof. intros n. apply (parse_run camel os fs r p PK); try apply VC. apply vc_in. Qed.
Lemma vc_wordc : wordc cenv.
Proof. eapply args_word; [exact PK|]. apply VC. Qed.
Lemma vc_wordf : wordf fs0.
Proof. eapply recv_word; [exact PK|apply vc_in|apply VC]. Qed.

(** A success, error or panic with some bound is final. *)
Lemma run_success : forall n fs1 rest, run n = (VStruct T fs1, SRet (VBytes rest) VNil) <-> dec n = Ok (fs1, rest).
Proof.
  intros n fs1 rest. pose proof (vc_run n) as E. destruct (dec n) as [[fs' c']|m|m|]; cbn in E.
  - rewrite E. split; intros H; congruence.
  - destruct E as [v E]. rewrite E. split; intros H; discriminate.
  - destruct E as [v E]. rewrite E. split; intros H; discriminate.
  - destruct E as [v E]. rewrite E. split; intros H; discriminate.
Qed.
Lemma run_error : forall n e, snd (run n) = SRet VNil (VErr e) <-> dec n = Err e.
Proof.
  intros n m. pose proof (vc_run n) as E. destruct (dec n) as [[fs' c']|m'|m'|]; cbn in E; [|destruct E as [v E]..]; rewrite E; cbn; split; intros H; congruence.
Qed.
Lemma run_panic : forall n e, snd (run n) = SPanic e <-> dec n = Panic e.
Proof.
  intros n m. pose proof (vc_run n) as E. destruct (dec n) as [[fs' c']|m'|m'|]; cbn in E; [|destruct E as [v E]..]; rewrite E; cbn; split; intros H; congruence.
Qed.
Lemma run_fuel : forall n, snd (run n) = SFuel <-> dec n = OutOfFuel.
Proof.
  intros n. pose proof (vc_run n) as E. destruct (dec n) as [[fs' c']|m'|m'|]; cbn in E; [|destruct E as [v E]..]; rewrite E; cbn; split; intros H; congruence.
Qed.
Lemma dec_final : forall n n' o, dec n = o -> o <> OutOfFuel -> (n <= n')%nat -> dec n' = o.
Proof. intros n n' o E N L. destruct (struct_mono camel r n n' s fs0 cenv data L) as [X|X]; congruence. Qed.
Lemma parses_dec : forall fs1 rest, parses camel p s fs0 data args fs1 rest <-> exists n, dec n = Ok (fs1, rest).
Proof.
  intros fs1 rest. split.
  - intros [n0 H]. exists n0. apply run_success. auto.
  - intros [n H]. exists n. intros n' L. apply run_success. apply (dec_final n); auto. discriminate.
Qed.
Lemma fails_dec : forall e, fails camel p s fs0 data args e <-> exists n, dec n = Err e.
Proof.
  intros e. split.
  - intros [n0 H]. exists n0. apply run_error. auto.
  - intros [n H]. exists n. intros n' L. apply run_error. apply (dec_final n); auto. discriminate.
Qed.
Lemma panics_dec : forall e, panics camel p s fs0 data args e <-> exists n, dec n = Panic e.
Proof.
  intros e. split.
  - intros [n0 H]. exists n0. apply run_panic. auto.
  - intros [n H]. exists n. intros n' L. apply run_panic. apply (dec_final n); auto. discriminate.
Qed.

(** Every bounded run is a prefix of the one outcome. *)
Lemma run_unique : forall n n' o o', dec n = o -> dec n' = o' -> o <> OutOfFuel -> o' <> OutOfFuel -> o = o'.
Proof.
  intros n n' o o' E E' N N'. rewrite <- (dec_final n (n + n') o E N ltac:(lia)). apply (dec_final n'); auto. lia.
Qed.

Lemma str_check : forall nm s', sv nm = Some s' -> Extern s' = false -> checkStruct camel r s' = true.
Proof. intros nm s' H E. destruct (pk_res camel os fs r p PK _ _ H E) as [_ I]. eapply pk_check; eauto. Qed.
Lemma str_defines : forall nm s', sv nm = Some s' -> Extern s' = false -> defines fs s' /\ sname s' = nm.
Proof. intros nm s' H E. destruct (pk_res camel os fs r p PK _ _ H E) as [N I]. split; auto. now apply defines_in. Qed.
Lemma ptr_struct : ptrFiles fs = true -> forall s', defines fs s' -> forallb ptrM (members_of s') = true.
Proof. intros P s' D. apply defines_in in D. unfold ptrFiles in P. rewrite forallb_forall in P. auto. Qed.

(** Sound. *)
Lemma parses_encodes : ptrFiles fs = true -> forall lenient : Prop,
  (lenient \/ forall s', defines fs s' -> forallb totalM (members_of s') = true) ->
  forall fs1 rest, parses camel p s fs0 data args fs1 rest ->
  exists w, data = w ++ rest /\ encStruct camel cv sv lenient cenv s fs0 w rest fs1.
Proof.
  intros PT lenient TT fs1 rest H. apply parses_dec in H as [n H].
  eapply (struct_sound camel r lenient) with (m := n); eauto.
  - intros nm s' HS HE. destruct (str_defines _ _ HS HE) as [D _]. split; [eapply str_check; eauto|]. split; [apply ptr_struct; auto|].
    destruct TT as [L|TT]; auto.
  - apply vc_check.
  - apply ptr_struct; auto. apply VC.
  - destruct TT as [L|TT]; auto. right. apply TT, VC.
  - apply vc_wordc.
  - apply vc_wordf.
  - apply VC.
  - apply VC.
Qed.

(** Safe. *)
Definition narrowFiles : Prop := forall s', defines fs s' -> narrow r s'.
Lemma never_panics : narrowFiles -> forall n m, snd (run n) <> SPanic m.
Proof.
  intros NA n m H. apply run_panic in H.
  assert (X : sat True (fun _ => True) (dec n)).
  { eapply sat_weak; [apply (struct_safe camel r True) with (c := data)|auto].
    - intros nm s' HS HE. destruct (str_defines _ _ HS HE) as [D _]. split; [eapply str_check; eauto|auto].
    - apply vc_check.
    - intros _. apply NA, VC.
    - apply (args_typed camel os fs r p PK). apply VC.
    - eapply recv_has; [exact PK|apply vc_in|apply VC].
    - apply VC. }
  rewrite H in X. cbn in X. tauto.
Qed.

Definition solidFiles : Prop := forall s', defines fs s' -> solid r (flat_map allFields (members_of s')).
(** Memory for arrays can always be allocated: their elements take input, or
    their lengths have at most 32 bits. *)
Definition roomyFiles : Prop := solidFiles \/ narrowFiles.
Lemma room_struct : roomyFiles -> forall s', defines fs s' -> roomy r narrowFiles (flat_map allFields (members_of s')).
Proof. intros [SO|NA] s' D nm t I; [right; exact (SO _ D _ _ I)|left; exact NA]. Qed.
Lemma Hstr_room : ptrFiles fs = true -> roomyFiles -> forall nm s', sv nm = Some s' -> Extern s' = false ->
  checkStruct camel r s' = true /\ forallb ptrM (members_of s') = true /\ roomy r narrowFiles (flat_map allFields (members_of s')).
Proof.
  intros PT RO nm s' HS HE. destruct (str_defines _ _ HS HE) as [D _]. split; [eapply str_check; eauto|].
  split; [apply ptr_struct; auto|apply room_struct; auto].
Qed.
Lemma gives_dec : forall n x, gives narrowFiles (dec n) x -> dec n = x.
Proof.
  intros n x [H|[NA [m H]]]; auto. exfalso. apply (never_panics NA n m). apply run_panic. exact H.
Qed.
(** Complete. *)
Lemma encodes_parses : ptrFiles fs = true -> roomyFiles -> blen data <= maxData ->
  forall (lenient : Prop) w rest fs1, data = w ++ rest -> encStruct camel cv sv lenient cenv s fs0 w rest fs1 ->
  parses camel p s fs0 data args fs1 rest.
Proof.
  intros PT RO L lenient w rest fs1 E H.
  destruct (struct_complete camel r lenient narrowFiles (Hstr_room PT RO) cenv s fs0 w rest fs1) as [n0 H0]; auto.
  - apply vc_check.
  - apply ptr_struct; auto. apply VC.
  - apply room_struct; auto. apply VC.
  - now rewrite <- E.
  - apply vc_wordc.
  - apply vc_wordf.
  - apply parses_dec. exists n0. apply gives_dec. rewrite E. auto.
Qed.

(** The interpreter never gets stuck: no use of an undefined name, no operation
    on a value of the wrong type, no missing field. *)
Lemma never_stuck : forall n, snd (run n) <> SPanic "ill-typed" /\ snd (run n) <> SNext.
Proof.
  intros n. split.
  - intros H. apply run_panic in H. pose proof (safe_run camel os fs r p PK n s fs0 data args vc_in (vc_args _ _ _ _ _ _ _ VC) (vc_recv _ _ _ _ _ _ _ VC) (vc_data _ _ _ _ _ _ _ VC)) as X.
    change (cenvOf s args) with cenv in X. rewrite H in X. cbn in X. tauto.
  - intros H. pose proof (vc_run n) as E. destruct (dec n) as [[fs' c']|m'|m'|]; cbn in E; [|destruct E as [v E]..]; rewrite E in H; discriminate.
Qed.

(** Terminating. *)
Definition progress (rank : string -> nat) : Prop := forall s', defines fs s' ->
  loopsOK r (flat_map allFields (members_of s')) /\ guarded r rank (rank (sname s')) (members_of s').
Lemma terminates : ptrFiles fs = true -> forall rank, progress rank ->
  (exists fs1 rest, parses camel p s fs0 data args fs1 rest) \/ (exists e, fails camel p s fs0 data args e) \/
  (exists m, panics camel p s fs0 data args m).
Proof.
  intros PT rank PR.
  assert (Hs : forall nm s', Struct r nm = Some s' -> Extern s' = false ->
     checkStruct camel r s' = true /\ forallb ptrM (members_of s') = true /\ loopsOK r (flat_map allFields (members_of s')) /\
     guarded r rank (rank nm) (members_of s')).
  { intros nm s' HS HE. destruct (str_defines _ _ HS HE) as [D <-]. destruct (PR _ D) as [A B].
    split; [eapply str_check; eauto|]. split; [apply ptr_struct; auto|]. auto. }
  destruct (struct_stable camel r rank Hs s cenv data fs0) as (N & R & NR & H).
  - apply vc_check.
  - apply ptr_struct; auto. apply VC.
  - apply PR. apply VC.
  - apply vc_wordc.
  - apply vc_wordf.
  - apply VC.
  - apply VC.
  - specialize (H N (Nat.le_refl _)). destruct R as [[fs1 rest]|e|m|]; [left|right; left|right; right|congruence].
    + exists fs1, rest. apply parses_dec. eauto.
    + exists e. apply fails_dec. eauto.
    + exists m. apply panics_dec. eauto.
Qed.

(** Accepts exactly the format. *)
Lemma decides : ptrFiles fs = true -> narrowFiles -> forall rank, progress rank -> blen data <= maxData ->
  forall lenient : Prop, (lenient \/ forall s', defines fs s' -> forallb totalM (members_of s') = true) ->
  (exists w rest fs1, data = w ++ rest /\ encStruct camel cv sv lenient cenv s fs0 w rest fs1 /\ parses camel p s fs0 data args fs1 rest) \/
  ((forall w rest fs1, data = w ++ rest -> ~ encStruct camel cv sv lenient cenv s fs0 w rest fs1) /\
   exists e, fails camel p s fs0 data args e).
Proof.
  intros PT NA rank PR L lenient TT. destruct (terminates PT rank PR) as [(fs1 & rest & H)|[(e & H)|(m & H)]].
  - left. destruct (parses_encodes PT lenient TT _ _ H) as (w & E & X). eauto 7.
  - right. split; [|eauto]. intros w rest fs1 E X. pose proof (encodes_parses PT (or_intror NA) L lenient _ _ _ E X) as H'.
    apply parses_dec in H' as [n1 H1]. apply fails_dec in H as [n2 H2]. pose proof (run_unique _ _ _ _ H1 H2). 
    assert (Ok (fs1, rest) = Err e) by (apply H; discriminate). discriminate.
  - exfalso. destruct H as [n H]. apply (never_panics NA n m). auto.
Qed.
Lemma parses_fun : forall fs1 rest fs2 rest', parses camel p s fs0 data args fs1 rest -> parses camel p s fs0 data args fs2 rest' ->
  fs1 = fs2 /\ rest = rest'.
Proof.
  intros fs1 rest fs2 rest' H1 H2. apply parses_dec in H1 as [n1 H1]. apply parses_dec in H2 as [n2 H2].
  assert (E : Ok (fs1, rest) = Ok (fs2, rest')) by (eapply run_unique; eauto; discriminate). now injection E.
Qed.

(** Suffix. *)
Lemma suffix : forall fs1 rest, parses camel p s fs0 data args fs1 rest -> exists w, data = w ++ rest.
Proof. intros fs1 rest H. apply parses_dec in H as [n H]. eapply struct_suf; eauto. Qed.

(** Errors at a visited place. *)
Lemma visit_error : ptrFiles fs = true -> roomyFiles -> blen data <= maxData ->
  forall (lenient : Prop) cenv' pos pl fs' c e, visits camel cv sv lenient cenv s fs0 data cenv' pos pl fs' c ->
  (forall d, failsAt camel r narrowFiles pl cenv' fs' c d (Fails e)) -> fails camel p s fs0 data args e.
Proof.
  intros PT SO L lenient cenv' pos pl fs' c e V F.
  destruct (visit_fails camel r lenient narrowFiles (Hstr_room PT SO) cenv s fs0 data vc_check (ptr_struct PT _ (vc_defined _ _ _ _ _ _ _ VC)) (room_struct SO _ (vc_defined _ _ _ _ _ _ _ VC)) L vc_wordc vc_wordf _ _ _ _ _ _ V F) as [n0 H0].
  apply fails_dec. exists n0. apply gives_dec. auto.
Qed.
Lemma fault_error : ptrFiles fs = true -> roomyFiles -> blen data <= maxData ->
  forall (lenient : Prop) cenv' pos pl fs' c e, visits camel cv sv lenient cenv s fs0 data cenv' pos pl fs' c ->
  faulty camel cv sv lenient cenv' pos pl fs' c e -> fails camel p s fs0 data args e.
Proof.
  intros PT SO L lenient cenv' pos pl fs' c e V F.
  destruct (fault_reported camel r lenient narrowFiles (Hstr_room PT SO) cenv s fs0 data vc_check (ptr_struct PT _ (vc_defined _ _ _ _ _ _ _ VC)) (room_struct SO _ (vc_defined _ _ _ _ _ _ _ VC)) L vc_wordc vc_wordf _ _ _ _ _ _ V F) as [n0 H0].
  apply fails_dec. exists n0. apply gives_dec. auto.
Qed.
End Call.
End Pack.
