(** Goroutines that call generated methods. *)
From Coq Require Import ZArith String List Bool Lia ZifyBool ZifyNat Permutation.
From Verif Require Import Base Ast IntervalsModel InspectModel InspectSpec InspectProofs GoLang GenModel GenCheck GenDecode GenSim GenSimBody GenSimProg PackageSpec PackageProofs
  CompileProg WireProofs WireSpec PackageFacts GoMem MemSim MemPath MemExec MemMono MemStep MemFill MemCall MemGen MemSpec MemTop
  GoConc ConcAlone ConcSafe ConcStep ConcExec ConcCall ConcPool ConcSpec.
Import ListNotations.
Open Scope string_scope.
Open Scope list_scope.
Open Scope Z_scope.

Section Pack.
Variable camel : string -> string.
Variable os : nat -> orders.
Variable fs : list file.
Variable r : resolver.
Variable p : program.
Hypothesis PK : package camel os fs r p.
Variable pl : platform.
Hypothesis WIDE : word pl = 8.
Notation T s := (camel (sname s)).

Section Run.
Variable ro : loc -> Prop.
Variable Post : list loc -> heap -> hres -> Prop.
Notation safe := (safe ro pl (ptypes p) Post).

(** A call of Parse by a goroutine. *)
Lemma run_safe : forall n s H l hfs hd data hargs args recv' v w k,
  In s (definedStructs fs) -> ctxValues camel r s args -> nth_error H l = Some (OStruct (T s) hfs) -> ~ ro l ->
  (forall k, ro k -> (k < List.length H)%nat) ->
  @shr (oldOf hfs hd) ro H (VBytes data) hd -> Forall2 (@shr (oldOf hfs hd) ro H) args hargs ->
  runParse camel p n s (shallowFields hfs) data args = (recv', SRet v w) ->
  (forall H' hv hw fp, @own (oldOf hfs hd) H' recv' (HPtr l) fp -> NoDup fp -> later ro [] H [l] H' fp ->
    @shr (oldOf hfs hd) ro H' v hv -> @shr (oldOf hfs hd) ro H' w hw -> safe (k (HRet hv hw)) fp H') ->
  safe (tcallMethod p n (HPtr l) hd hargs k) [l] H.
Proof.
  intros n s H l hfs hd data hargs args recv' v w k D CV NL NR IN SD SA RUN K.
  assert (LB : (l < List.length H)%nat) by (apply nth_error_Some; congruence).
  change [l] with ([l] ++ []).
  eapply (@call_safe (oldOf hfs hd) p ro pl Post WIDE (package_ok _ _ _ _ _ PK) n [] H (VStruct (T s) (shallowFields hfs)) (VBytes data) args).
  - eapply own_struct; eauto.
    + unfold shallowFields. rewrite map_map. reflexivity.
    + apply shallows_own. intros x I. now right.
  - constructor; [intros []|constructor].
  - intros k0 [<-|[]]. exact NR.
  - exact IN.
  - intros x [].
  - exact SD.
  - exact SA.
  - intros f Lf. destruct (program_struct camel r fs p (pk_gen _ _ _ _ _ PK) (pk_checked _ _ _ _ _ PK) s D) as (ds & f' & ct & _ & Hf & _ & _ & Lf' & _).
    rewrite Lf in Lf'. injection Lf' as <-. rewrite (parse_params _ _ _ _ Hf). eapply args_len. eauto.
  - exact RUN.
  - intros H' hv hw fp' O ND _ LT SV SW. rewrite app_nil_r. eapply K; eauto.
Qed.

(** What a goroutine evaluates without looking at memory. *)
Lemma safe_const : forall e x k v M H, (forall H1, heval pl (ptypes p) H1 e x = Ok (v, H1)) ->
  (forall H1, reads pl (ptypes p) H1 e x = []) -> (forall H1, writes pl (ptypes p) H1 e x = []) -> safe (k v) M H -> safe (TEval e x k) M H.
Proof.
  intros e x k v M H E R W S H1 ST. rewrite R, W. split; [intros y []|]. split; [intros y []|]. exists v, H1, M. split; auto. split; [apply grows_refl|].
  eapply safe_stable; eauto.
Qed.
Lemma safe_vars : forall e M H xs args k, NoDup xs -> List.length args = List.length xs ->
  (forall x, In x xs -> alookup x e = alookup x (combine xs args)) -> safe (k args) M H -> safe (tevals e (map EVar xs) k) M H.
Proof.
  intros e M H. induction xs as [|y ys IH]; intros [|z zs] k ND L A S; try discriminate; [exact S|]. cbn [map tevals]. inversion ND as [|? ? N1 N2]; subst.
  apply safe_const with (v := z); try reflexivity.
  - intros H1. cbn [heval]. rewrite (A y (or_introl eq_refl)). cbn [combine alookup]. now rewrite String.eqb_refl.
  - apply (IH zs (fun vs => k (z :: vs))); auto. intros x I. rewrite (A x (or_intror I)). cbn [combine alookup]. destruct (String.eqb_spec x y) as [->|]; auto. contradiction.
Qed.

(** A call of ParseX: what its code does around that of Parse. *)
Lemma ctor_safe : forall n s H hd hargs k, In s (definedStructs fs) -> List.length hargs = List.length (scontexts s) ->
  exists ds, structDecl camel r s = Ok ds /\
  ((forall H1 kk, stable ro [] H H1 ->
      (forall M H', safe (k (HRet (HPtr (List.length H1)) HNil)) M H' -> forall hv, safe (kk (HRet hv HNil)) M H') ->
      (forall M H' e, safe (k (HRet HNil (HErr e))) M H' -> forall hv, safe (kk (HRet hv (HErr e))) M H') ->
      safe (tcallMethod p n (HPtr (List.length H1)) hd hargs kk) [List.length H1] (H1 ++ [OStruct (T s) (hzeros ds)])) ->
   safe (tcallCtor p n (T s) hd hargs k) [] H).
Proof.
  intros n s H hd hargs k I LA.
  destruct (program_struct camel r fs p (pk_gen _ _ _ _ _ PK) (pk_checked _ _ _ _ _ PK) s I) as (ds & f & ct & Hds & Hf & Hct & Lt & Lm & Lc).
  exists ds. split; auto. intros X. unfold tcallCtor. rewrite Lc. unfold ctorFunc in Hct. apply bind_ok in Hct as (rv & Hrv & Hct). injection Hct as <-.
  cbn [fbody fparams]. pose proof (pk_check _ _ _ _ _ PK s I) as CS. unfold checkStruct in CS. apply andb_true_iff in CS as [CS SC].
  unfold checkScope in SC. rewrite Hrv in SC.
  apply andb_true_iff in SC as [SC S4]. apply andb_true_iff in SC as [SC S3]. apply andb_true_iff in SC as [S1 S2].
  apply negb_true_iff, memb_notin in S1. apply negb_true_iff, memb_notin in S3. apply nodupb_NoDup in S4.
  pose proof (proj1 (disjointb_spec _ _) S2) as S2'.
  assert (RD : rv <> "data") by (intros ->; apply S1; cbn; auto).
  assert (RE : rv <> "err") by (intros ->; apply S1; cbn; auto).
  rewrite texecs_cons. cbn [texec]. intros H1 ST. split; [intros y []|]. split; [intros y []|].
  exists (HPtr (List.length H1)), (H1 ++ [OStruct (T s) (hzeros ds)]), [List.length H1]. split; [|split].
  - cbn [heval]. rewrite Lt. reflexivity.
  - split; [split; [rewrite app_length; lia|]; split|].
    + intros l Q _. now rewrite nth_error_app1.
    + intros l [<-|[]]. right. lia.
    + intros _ l [<-|[]]. rewrite app_length. cbn. lia.
  - rewrite texecs_cons. cbn [texec lexpr]. apply safe_const with (v := HPtr (List.length H1)); try reflexivity.
    { intros H2. cbn [heval alookup]. now rewrite String.eqb_refl. }
    apply safe_const with (v := hd); try reflexivity.
    { intros H2. cbn [heval alookup]. destruct (String.eqb_spec "data" rv); [congruence|]. now rewrite String.eqb_refl. }
    apply safe_vars with (args := hargs); auto.
    { intros x Ix. cbn [alookup]. destruct (String.eqb_spec x rv) as [->|]; [tauto|].
      destruct (String.eqb_spec x "data") as [->|]; auto. exfalso. apply (S2' _ Ix). cbn; auto. }
    apply X; auto.
    + intros M H' S hv. rewrite texecs_cons. cbn [texec]. apply safe_const with (v := HBool false); try reflexivity.
      rewrite texecs_cons. cbn [texec]. apply safe_const with (v := HPtr (List.length H1)); try reflexivity.
      { intros H2. cbn [heval alookup]. destruct (String.eqb_spec rv "err"); [congruence|]. now rewrite String.eqb_refl. }
      apply safe_const with (v := HNil); try reflexivity. exact S.
    + intros M H' e S hv. rewrite texecs_cons. cbn [texec]. apply safe_const with (v := HBool true); try reflexivity.
      apply safe_const with (v := HNil); try reflexivity. apply safe_const with (v := HErr e); try reflexivity. exact S.
Qed.
End Run.

(* ---------- jobs ---------- *)

Variable H0 : heap.
Variable jobs : list job.
Hypothesis OK : Forall (jobOk camel fs r H0) jobs.
Hypothesis APART : ownReceivers jobs.

(** What is shared. *)
Definition shared (l : loc) : Prop := exists j, In j jobs /\ readOnly (jslice j) (jdata j) (jctxs j) l.

Lemma shared_kind : forall l, shared l ->
  (exists cells, nth_error H0 l = Some (OArray cells)) \/
  (exists x c hf, nth_error H0 l = Some (OStruct (camel (cname c)) hf) /\ Context r x = Some c).
Proof.
  intros l (j & J & RO). pose proof (proj1 (Forall_forall _ _) OK _ J) as ([D CV GS GB] & _ & MD & MA). destruct RO as [(ND & o & n & c & E)|I].
  - destruct MD as (b & o' & c' & E' & _ & [Z|(cells & N & _)]); [contradiction|]. rewrite E in E'. inversion E'; subst. eauto.
  - right. unfold ctxValues in CV. revert I MA CV. generalize (scontexts (jstruct j)) as xs. generalize (jargs j) as args.
    induction (jctxs j) as [|a hargs IH]; intros args xs I MA CV; [destruct I|].
    inversion MA as [|? v0 ? args0 M1 M2]; subst. inversion CV as [|x0 ? xs0 ? C1 C2]; subst. destruct I as [->|I]; [|eauto].
    destruct M1 as (k & ty & hf & cf & E & E' & N & _). injection E as <-. destruct C1 as (c & HC & cf' & EQ & _). subst. injection EQ as -> _. eauto.
Qed.
Lemma shared_old : forall l, shared l -> (l < List.length H0)%nat.
Proof. intros l S. apply nth_error_Some. destruct (shared_kind l S) as [(cells & ->)|(x & c & hf & -> & _)]; discriminate. Qed.
Lemma shared_receiver : forall j l hfs, In j jobs -> jrecv j = Some (l, hfs) -> ~ shared l.
Proof.
  intros j l hfs J E S. pose proof (proj1 (Forall_forall _ _) OK _ J) as ([D _ _ _] & MR & _). rewrite E in MR. apply defines_in in D.
  destruct (shared_kind l S) as [(cells & N)|(x & c & hf & N & HC)]; rewrite N in MR; [discriminate|]. injection MR as MR _.
  eapply (names_apart camel os fs r p PK); eauto.
Qed.
Lemma shared_data : forall j {oldI : Old} H, In j jobs -> (forall b i k, (exists o n c, jslice j = HSlice b o n c /\ (o <= i)%nat /\ (k <= o + n)%nat) -> win b i k) ->
  (forall l, shared l -> nth_error H l = nth_error H0 l) -> shr shared H (VBytes (jdata j)) (jslice j) /\ Forall2 (shr shared H) (jargs j) (jctxs j).
Proof.
  intros j oldI H J W A. pose proof (proj1 (Forall_forall _ _) OK _ J) as (_ & _ & MD & MA). split.
  - eapply shr_agree with (H := H0); [|exact A]. destruct MD as (b & o & c & E & L & Z). rewrite E. econstructor; eauto.
    destruct Z as [->|(cells & N & F)]; [now left|]. destruct (jdata j) as [|z data] eqn:DJ; [now left|]. right. split; [|eauto]. split.
    + exists j. split; auto. left. split; [rewrite DJ; discriminate|]. eauto.
    + apply W. exists o, (List.length (z :: data)), c. split; auto.
  - assert (S0 : Forall2 (shr shared H0) (jargs j) (jctxs j)) by (apply args_shr; auto; intros k I; exists j; split; auto; now right).
    clear - S0 A. induction S0; constructor; auto. eapply shr_agree; eauto.
Qed.

Lemma tree_of : forall s hfs hd H v l fp, @own (oldOf hfs hd) H v (HPtr l) fp -> NoDup fp -> (forall x, In x (fieldRefs hfs) -> x = HNil) ->
  s = HPtr l -> forall w k, leads H s w k -> In k fp.
Proof.
  intros s hfs hd H v l fp O ND U -> w k L. unshelve eapply (proj1 (@own_tree (oldOf hfs hd) H _) _ _ _ O ND); eauto.
  intros hv [->|I]; auto.
Qed.

(** What a goroutine has in the end. *)
Definition answer (j : job) (fp : list loc) (H : heap) (res : hres) : Prop :=
  answered camel r p (List.length H0) H j res /\
  (unused j -> forall w k, leads H (target j res) w k -> In k fp).

Definition starts (j : job) : list loc := match jrecv j with Some (l, _) => [l] | None => [] end.

Lemma job_safe : forall j, In j jobs -> jobEnds camel r p j -> exists n0, forall n, (n0 <= n)%nat ->
  safe shared pl (ptypes p) (answer j) (started camel p n j) (starts j) H0.
Proof.
  intros j J E. pose proof (proj1 (Forall_forall _ _) OK _ J) as (VC & MR & MD & MA).
  pose proof (proj1 (defines_in _ _) (vc_defined _ _ _ _ _ _ _ VC)) as D. pose proof (vc_args _ _ _ _ _ _ _ VC) as CV.
  assert (RUN : exists n0, forall n, (n0 <= n)%nat -> exists recv' v w, runParse camel p n (jstruct j) (fieldsBefore camel r j) (jdata j) (jargs j) = (recv', SRet v w) /\
    ((exists fs1 rest, jobParses camel r p j fs1 rest /\ recv' = VStruct (T (jstruct j)) fs1 /\ v = VBytes rest /\ w = VNil) \/
     (exists e, jobFails camel r p j e /\ v = VNil /\ w = VErr e))).
  { destruct E as [(fs1 & rest & P)|(e & P)]; pose proof P as [n0 Q]; exists n0; intros n L; specialize (Q n L).
    - cbn beta in Q. exists (VStruct (T (jstruct j)) fs1), (VBytes rest), VNil. split; auto. left. exists fs1, rest. auto.
    - cbn beta in Q. destruct (runParse camel p n (jstruct j) (fieldsBefore camel r j) (jdata j) (jargs j)) as [recv' res] eqn:R. cbn [snd] in Q. subst res.
      exists recv', VNil, (VErr e). split; auto. right. eauto. }
  destruct RUN as [n0 RUN]. exists n0. intros n L. destruct (RUN n L) as (recv' & v & w & R & CASES). clear RUN L n0.
  unfold started, starts. unfold fieldsBefore in R. destruct (jrecv j) as [[l hfs]|] eqn:JR.
  - (* on a receiver *)
    destruct (@shared_data j (oldOf hfs (jslice j)) H0 J) as [SD SA]; auto.
    eapply run_safe; eauto.
    + eapply shared_receiver; eauto.
    + exact shared_old.
    + intros H' hv hw fp O ND LT SV SW. cbn [safe]. intros H1 [ST1 ST2]. exists fp. split; [intros x X; exact X|].
      assert (O1 : @own (oldOf hfs (jslice j)) H1 recv' (HPtr l) fp) by (eapply own_agree; eauto; intros x X; apply ST2; auto).
      assert (SV1 : @shr (oldOf hfs (jslice j)) shared H1 v hv) by (eapply shr_agree; eauto; intros x X; apply ST2; auto).
      assert (SW1 : @shr (oldOf hfs (jslice j)) shared H1 w hw) by (eapply shr_agree; eauto; intros x X; apply ST2; auto).
      split.
      * destruct CASES as [(fs1 & rest & P & -> & -> & ->)|(e & P & -> & ->)].
        -- left. exists fs1, rest. split; auto. rewrite JR. inversion SW1; subst.
           destruct (own_struct_inv _ _ _ _ _ O1) as (k & hfs1 & fp' & EK & -> & N & NM & OS). injection EK as <-. exists hv, hfs1. split; auto.
           inversion SV1 as [| | | |b base off len cap -> LC Z|]; subst. split; [|split; [|split]].
           ++ exists base, off, cap. split; auto. split; auto. destruct Z as [Z|(_ & cells & Z1 & Z2)]; eauto.
           ++ destruct Z as [Z|((_ & W) & _)]; auto. right. destruct W as (o & m & c & -> & W1 & W2). cbn. auto.
           ++ exact N.
           ++ apply made_fields; auto. unshelve eapply (proj2 (@own_made (oldOf hfs (jslice j)) _ _ _ _)); eauto.
              intros k K. inversion ND as [|? ? N1 N2]; subst. destruct LT as (_ & _ & FP). destruct (FP k (or_intror K)) as [[<-|[]]|]; auto. contradiction.
        -- right. exists e. split; auto. inversion SV1; subst. inversion SW1; subst. reflexivity.
      * intros U. unfold unused in U. rewrite JR in U. eapply tree_of; eauto. unfold target. now rewrite JR.
  - (* without one *)
    assert (LA : List.length (jctxs j) = List.length (scontexts (jstruct j))).
    { rewrite (Forall2_len _ _ _ MA). eapply args_len. exact CV. }
    destruct (ctor_safe shared (answer j) n (jstruct j) H0 (jslice j) (jctxs j) TEnd D LA) as (ds & Hds & X). apply X. clear X.
    intros H1 kk [ST1 ST2] KN KE. set (H2 := H1 ++ [OStruct (T (jstruct j)) (hzeros ds)]).
    assert (A2 : forall l, shared l -> nth_error H2 l = nth_error H0 l).
    { intros l S. unfold H2. rewrite nth_error_app1; [apply ST2; auto|]. pose proof (shared_old _ S). lia. }
    destruct (@shared_data j (oldOf (hzeros ds) (jslice j)) H2 J) as [SD SA]; auto.
    rewrite <- (zeros_blank _ _ _ _ Hds), <- hzeros_shallow in R.
    eapply run_safe; eauto.
    + unfold H2. rewrite nth_error_app2 by lia. now rewrite Nat.sub_diag.
    + intros S. apply shared_old in S. lia.
    + intros k S. apply shared_old in S. unfold H2. rewrite app_length. lia.
    + intros H' hv hw fp O ND LT SV SW. destruct CASES as [(fs1 & rest & P & -> & -> & ->)|(e & P & -> & ->)].
      * inversion SW; subst. apply KN. cbn [safe]. intros H3 [T1 T2]. exists fp. split; [intros x Y; exact Y|].
        assert (O1 : @own (oldOf (hzeros ds) (jslice j)) H3 (VStruct (T (jstruct j)) fs1) (HPtr (List.length H1)) fp) by (eapply own_agree; eauto; intros x Y; apply T2; auto).
        split.
        -- left. exists fs1, rest. split; auto. rewrite JR. exists (List.length H1). split; auto. unshelve eapply (proj1 (@own_made (oldOf (hzeros ds) (jslice j)) _ _ _ _)); eauto.
           ++ intros hv0 [->|I]; auto. left. eapply hzeros_refs; eauto.
           ++ intros k K. destruct LT as (_ & _ & FP). destruct (FP k K) as [[<-|[]]|Q]; auto. unfold H2 in Q. rewrite app_length in Q. lia.
        -- intros _. unfold target. rewrite JR. eapply tree_of; eauto. intros x Y. eapply hzeros_refs; eauto.
      * inversion SV; subst. inversion SW; subst. apply KE. cbn [safe]. intros H3 _. exists fp. split; [intros x Y; exact Y|]. split.
        -- right. eauto.
        -- intros _ w k. unfold target. rewrite JR. intros Q. inversion Q.
Qed.

Lemma all_safe : (forall j, In j jobs -> jobEnds camel r p j) -> exists n0, forall n, (n0 <= n)%nat -> forall j, In j jobs ->
  safe shared pl (ptypes p) (answer j) (started camel p n j) (starts j) H0.
Proof.
  intros E. assert (K : forall js, (forall j, In j js -> In j jobs) -> exists n0, forall n, (n0 <= n)%nat -> forall j, In j js ->
    safe shared pl (ptypes p) (answer j) (started camel p n j) (starts j) H0).
  { induction js as [|j js IH]; intros S; [exists 0%nat; intros n _ j []|]. destruct IH as [n1 A]; [intros; apply S; now right|].
    destruct (job_safe j) as [n2 B]; [apply S; now left|apply E, S; now left|]. exists (Nat.max n1 n2). intros n L k [<-|I]; [apply B; lia|apply A; auto; lia]. }
  apply K. auto.
Qed.

Definition jobPost (i : nat) : list loc -> heap -> hres -> Prop := match nth_error jobs i with Some j => answer j | None => fun _ _ _ => True end.
Definition jobOwns (i : nat) : list loc := match nth_error jobs i with Some j => starts j | None => [] end.

Theorem pool_fine : (forall j, In j jobs -> jobEnds camel r p j) -> exists n0, forall n, (n0 <= n)%nat ->
  forall P, psteps pl (ptypes p) (H0, map (started camel p n) jobs) P -> fine camel r p pl H0 jobs P.
Proof.
  intros E. destruct (all_safe E) as [n0 S]. exists n0. intros n L P ST. specialize (S n L).
  assert (V0 : inv pl (ptypes p) shared jobPost (H0, map (started camel p n) jobs) jobOwns).
  { constructor; cbn [fst snd].
    - intros i t N. rewrite nth_error_map in N. unfold jobPost, jobOwns. destruct (nth_error jobs i) as [j|] eqn:J; cbn in N; [|discriminate]. injection N as <-.
      apply S. eapply nth_error_In; eauto.
    - intros i l _ I. unfold jobOwns, starts in I. destruct (nth_error jobs i) as [j|] eqn:J; [|destruct I]. apply nth_error_In in J.
      destruct (jrecv j) as [[l' hfs]|] eqn:JR; [|destruct I]. destruct I as [<-|[]]. pose proof (proj1 (Forall_forall _ _) OK _ J) as (_ & MR & _). rewrite JR in MR.
      apply nth_error_Some. congruence.
    - intros i l _ I. unfold jobOwns, starts in I. destruct (nth_error jobs i) as [j|] eqn:J; [|destruct I]. apply nth_error_In in J.
      destruct (jrecv j) as [[l' hfs]|] eqn:JR; [|destruct I]. destruct I as [<-|[]]. eapply shared_receiver; eauto.
    - intros i k l N _ _ I1 I2. unfold jobOwns, starts in I1, I2. destruct (nth_error jobs i) as [a|] eqn:A; [|destruct I1]. destruct (nth_error jobs k) as [b|] eqn:B; [|destruct I2].
      destruct (jrecv a) as [[la hfa]|] eqn:RA; [|destruct I1]. destruct (jrecv b) as [[lb hfb]|] eqn:RB; [|destruct I2]. destruct I1 as [<-|[]]. destruct I2 as [->|[]].
      eapply (APART i k a b la); eauto; eexists; eauto.
    - exact shared_old. }
  destruct (inv_steps pl (ptypes p) shared jobPost _ _ ST _ V0) as (Ms & V & LN & [C1 C2] & G). cbn [fst snd] in *. rewrite map_length in *.
  assert (END : forall i j res, nth_error jobs i = Some j -> nth_error (snd P) i = Some (TEnd res) -> exists fp, incl fp (Ms i) /\ answer j fp (fst P) res).
  { intros i j res J N. pose proof (i_safe _ _ _ _ _ _ V i _ N) as Q. cbn [safe] in Q. destruct (Q (fst P) (stable_refl _ _ _)) as (fp & I & A).
    unfold jobPost in A. rewrite J in A. eauto. }
  split; [eapply inv_race; eauto|]. split; [exact LN|]. split; [|split; [|split]].
  - intros i j res J N. destruct (END i j res J N) as (fp & _ & A & _). exact A.
  - exact C1.
  - intros l LL NR. apply C2; auto. intros (i & Li & I). unfold jobOwns, starts in I. destruct (nth_error jobs i) as [j|] eqn:J; [|destruct I].
    destruct (jrecv j) as [[l' hfs]|] eqn:JR; [|destruct I]. destruct I as [->|[]]. apply (NR j); [eapply nth_error_In; eauto|]. now exists hfs.
  - intros i j a b ra rb w1 w2 l N A B NA NB UA UB L1 L2. destruct (END i a ra A NA) as (fa & IA & _ & XA). destruct (END j b rb B NB) as (fb & IB & _ & XB).
    assert (Li : (i < List.length (snd P))%nat) by (apply nth_error_Some; congruence). assert (Lj : (j < List.length (snd P))%nat) by (apply nth_error_Some; congruence).
    eapply (i_apart _ _ _ _ _ _ V i j l); eauto.
Qed.
End Pack.
