(** Building over what earlier builds have left behind. *)
From Coq Require Import ZArith String Ascii List Bool Lia Permutation.
From Verif Require Import PegModel PegGrammar PegTop SyntaxSpec PegExact.
From Verif Require Import Base Ast IntervalsModel InspectModel InspectSpec InspectProofs GoLang GenModel GenCheck GenPrint WireSpec WireProofs WireComplete
  PackageSpec PackageProofs PackageFacts PackageMore ResDet TvModel TvConstraints TvFacts TvClass TvGood TvAccept PkgModel PkgSpec PkgProofs PkgFacts BuildModel BuildProofs.
Import ListNotations.
Open Scope string_scope.
Open Scope list_scope.
Open Scope nat_scope.

(** No file operation fails. *)
Definition quiet (w : surroundings) : Prop := forall k, bFails w k = None.
(** The same surroundings, with other failures. *)
Definition setFails (fl : nat -> option (string * option bytes)) (w : surroundings) : surroundings :=
  mkSurroundings fl (bRender w) (bTests w) (bFuzz w) (bNamer w) (bCamel w) (bGrow w) (bOrds w) (bSel w) (bOrders1 w) (bOrders2 w) (bRng w) (bLocate w).

(** The writes of a plan, up to the first step that cannot be done, and its result. *)
Fixpoint okSteps (plan : list step) : list (path * bytes) :=
  match plan with
  | (p, Ok b) :: plan' => (p, b) :: okSteps plan'
  | _ => []
  end.
Fixpoint planResult (plan : list step) : outcome unit :=
  match plan with
  | [] => Ok tt
  | (p, Ok b) :: plan' => planResult plan'
  | (p, c) :: _ => (_ <- c ;; Ok tt)%outcome
  end.

Lemma okSteps_known : forall l, okSteps (known l) = l /\ planResult (known l) = Ok tt.
Proof. induction l as [|[p b] l (A & B)]; cbn; split; auto. f_equal. exact A. Qed.
Lemma okSteps_stop : forall l p c rest, (forall b, c <> Ok b) ->
  okSteps (known l ++ (p, c) :: rest) = l /\ planResult (known l ++ (p, c) :: rest) = (_ <- c ;; Ok tt)%outcome.
Proof.
  induction l as [|[q b] l IH]; intros p c rest N; cbn.
  - destruct c; auto. exfalso. now apply (N a).
  - destruct (IH p c rest N) as (A & B). split; auto. f_equal. exact A.
Qed.
Lemma okSteps_in : forall plan p b, In (p, b) (okSteps plan) -> In (p, Ok b) plan.
Proof.
  induction plan as [|[q c] plan IH]; intros p b I; cbn in I; [destruct I|]. destruct c; try (destruct I; fail).
  destruct I as [I|I]; [injection I as -> ->; now left|right; auto].
Qed.
Lemma planResult_ok : forall plan, planResult plan = Ok tt -> plan = known (okSteps plan).
Proof.
  induction plan as [|[q c] plan IH]; intros H; cbn in *; auto. destruct c; cbn in H; try discriminate. unfold known in *. cbn. f_equal. auto.
Qed.

Lemma quiet_carried : forall fails plan f x g, (forall k, fails k = None) -> carriedOut fails plan f x g ->
  x = planResult plan /\ flog g = flog f ++ okSteps plan /\ forall q, fread g q = written (okSteps plan) (fread f) q.
Proof.
  intros fails plan f x g NF (k & l & L & F & LG & _ & RD & X).
  assert (ST : forall p c, nth_error plan k = Some (p, c) -> x = (_ <- c ;; Ok tt)%outcome -> (forall u, x <> Ok u) ->
    okSteps plan = l /\ planResult plan = x).
  { intros p c NE E NO. apply nth_error_split in NE as (l1 & l2 & E1 & E2). subst k. rewrite E1 in F. rewrite firstn_app, firstn_all, Nat.sub_diag in F. cbn in F.
    rewrite app_nil_r in F. subst plan l1. destruct (okSteps_stop l p c l2) as (A & B).
    - intros b ->. apply (NO tt). now rewrite E.
    - split; [exact A|rewrite E; exact B]. }
  destruct x as [[]|e|m|].
  - subst k. rewrite firstn_all in F. change (plan = known l) in F. subst plan. destruct (okSteps_known l) as (A & B). rewrite A, B. auto 6.
  - destruct X as [(n & e' & lf & _ & A & _)|(p & c & NE & E & D)]; [rewrite NF in A; discriminate|].
    destruct (ST p c NE E) as (A & B); [discriminate|]. rewrite A, B. auto.
  - destruct X as [(n & e' & lf & _ & A & _)|(p & c & NE & E & D)]; [rewrite NF in A; discriminate|].
    destruct (ST p c NE E) as (A & B); [discriminate|]. rewrite A, B. auto.
  - destruct X as [(n & e' & lf & _ & A & _)|(p & c & NE & E & D)]; [rewrite NF in A; discriminate|].
    destruct (ST p c NE E) as (A & B); [discriminate|]. rewrite A, B. auto.
Qed.

(** Whatever fails, a file that is in no step is as before. *)
Lemma carried_other : forall fails plan f x g q, carriedOut fails plan f x g -> ~ In q (map fst plan) -> fread g q = fread f q.
Proof.
  intros fails plan f x g q (k & l & L & F & _ & _ & RD & _) N.
  rewrite RD.
  - apply written_other. intros b I. apply N. apply in_map_iff. exists (q, Ok b). split; auto.
    rewrite <- (firstn_skipn k plan). apply in_or_app. left. rewrite F. apply in_map_iff. exists (q, b). auto.
  - right. intros [p c] NE E. apply N. apply in_map_iff. exists (p, c). split; auto. eapply nth_error_In; eauto.
Qed.

Lemma written_hit : forall l r1 r2 q, In q (map fst l) -> written l r1 q = written l r2 q.
Proof.
  induction l as [|[p b] l IH]; intros r1 r2 q I; [destruct I|]. cbn [written]. destruct I as [I|I]; [|now apply IH].
  cbn in I. subst p. apply written_ext. unfold path_eqb. destruct (list_eq_dec string_dec q q); congruence.
Qed.
Lemma written_miss : forall l r q, ~ In q (map fst l) -> written l r q = r q.
Proof. intros l r q N. apply written_other. intros b I. apply N. apply in_map_iff. exists (q, b). auto. Qed.

Lemma parseFiles_same : forall m d1 d2 names, (forall name, In name names -> d1 name = d2 name) -> parseFiles m d1 names = parseFiles m d2 names.
Proof.
  intros m d1 d2 names. induction names as [|nm names IH]; intros E; cbn [parseFiles]; auto.
  unfold parseFile. rewrite (E nm) by now left. rewrite IH; [reflexivity|]. intros; apply E; now right.
Qed.

(** A build, by what the sources are read as. *)
Lemma build_by_sources : forall w m names f,
  (exists x, (forall u, x <> Ok u) /\ (forall w' n' dir' f', parseFiles m (inputs w' f') names = parseFiles m (inputs w f) names -> build w' m n' dir' names f' = (x, f'))) \/
  exists fs, names <> [] /\ parseFiles m (inputs w f) names = Some (Ok fs) /\ Forall2 (readAs (inputs w f)) names fs /\
    (forall w' n' dir' f', parseFiles m (inputs w' f') names = parseFiles m (inputs w f) names ->
    carriedOut (bFails w') (planOf w' n' dir' fs) f' (fst (build w' m n' dir' names f')) (snd (build w' m n' dir' names f'))).
Proof.
  intros w m names f. destruct names as [|nm rest] eqn:EN; [left; exists (Err "missing trunnel filenames"); split; [discriminate|reflexivity]|].
  destruct (parseFiles m (inputs w f) (nm :: rest)) as [[fs|e|x|]|] eqn:P.
  - right. exists fs. split; [discriminate|]. split; auto. split; [eapply parseFiles_some; eauto|]. intros w' n' dir' f' E. unfold build. rewrite E. cbn [given]. apply carried_package.
  - left. exists (Err e). split; [discriminate|]. intros w' n' dir' f' E. unfold build. now rewrite E.
  - left. exists (Panic x). split; [discriminate|]. intros w' n' dir' f' E. unfold build. now rewrite E.
  - left. exists OutOfFuel. split; [discriminate|]. intros w' n' dir' f' E. unfold build. now rewrite E.
  - left. exists OutOfFuel. split; [discriminate|]. intros w' n' dir' f' E. unfold build. now rewrite E.
Qed.

(** Sources alone decide: over two disks with the same sources. *)
Theorem same_outputs : forall w m n dir names f1 f2, quiet w -> (forall name, In name names -> inputs w f1 name = inputs w f2 name) ->
  fst (build w m n dir names f1) = fst (build w m n dir names f2) /\
  (exists l, flog (snd (build w m n dir names f1)) = flog f1 ++ l /\ flog (snd (build w m n dir names f2)) = flog f2 ++ l) /\
  forall q, fread (snd (build w m n dir names f1)) q = fread (snd (build w m n dir names f2)) q \/
    (fread (snd (build w m n dir names f1)) q = fread f1 q /\ fread (snd (build w m n dir names f2)) q = fread f2 q).
Proof.
  intros w m n dir names f1 f2 Q S. apply (parseFiles_same m) in S.
  destruct (build_by_sources w m names f1) as [(x & _ & E)|(fs & _ & _ & _ & C)].
  - rewrite (E w n dir f1 eq_refl), (E w n dir f2 (eq_sym S)). cbn. split; auto. split; [exists []; now rewrite !app_nil_r|auto].
  - destruct (quiet_carried _ _ _ _ _ Q (C w n dir f1 eq_refl)) as (-> & -> & R1).
    destruct (quiet_carried _ _ _ _ _ Q (C w n dir f2 (eq_sym S))) as (-> & -> & R2). split; auto. split; [eauto|].
    intros q. rewrite R1, R2. destruct (in_dec (list_eq_dec string_dec) q (map fst (okSteps (planOf w n dir fs)))) as [I|I].
    + left. now apply written_hit.
    + right. split; now apply written_miss.
Qed.

(** None of the sources is an output. *)
Definition apart (w : surroundings) (dir : path) (names : list string) (f : fsys) : Prop :=
  forall fs name, Forall2 (readAs (inputs w f)) names fs -> In name names -> ~ output dir fs (bLocate w name).

(** Then a build, of whatever outcome, leaves the sources as they are. *)
Lemma sources_stay : forall w m n dir names f, apart w dir names f ->
  forall name, In name names -> inputs w (snd (build w m n dir names f)) name = inputs w f name.
Proof.
  intros w m n dir names f A name I. unfold inputs. f_equal.
  destruct (fread (snd (build w m n dir names f)) (bLocate w name)) as [a|] eqn:E1, (fread f (bLocate w name)) as [b|] eqn:E2; auto.
  - destruct (list_eq_dec Z.eq_dec a b) as [->|N]; auto. exfalso.
    destruct (only_outputs w m n dir names f (bLocate w name)) as (fs & R & O); [congruence|]. exact (A fs name R I O).
  - exfalso. destruct (only_outputs w m n dir names f (bLocate w name)) as (fs & R & O); [congruence|]. exact (A fs name R I O).
  - exfalso. destruct (only_outputs w m n dir names f (bLocate w name)) as (fs & R & O); [congruence|]. exact (A fs name R I O).
Qed.

(** A build that was interrupted, or went wrong in any other way, can be made
    good by building again. *)
Theorem repaired : forall w m n dir names f f0 fl, quiet w -> apart w dir names f -> build w m n dir names f = (Ok tt, f0) ->
  let f1 := snd (build (setFails fl w) m n dir names f) in
  fst (build w m n dir names f1) = Ok tt /\ forall q, fread (snd (build w m n dir names f1)) q = fread f0 q.
Proof.
  intros w m n dir names f f0 fl Q A B f1.
  assert (S : forall name, In name names -> inputs w f1 name = inputs w f name) by exact (sources_stay (setFails fl w) m n dir names f A).
  apply (parseFiles_same m) in S.
  destruct (build_by_sources w m names f) as [(x & N & E)|(fs & _ & _ & _ & C)].
  { rewrite (E w n dir f eq_refl) in B. injection B as -> _. exfalso. now apply (N tt). }
  pose proof (C w n dir f eq_refl) as C0. rewrite B in C0. cbn [fst snd] in C0.
  destruct (quiet_carried _ _ _ _ _ Q C0) as (E0 & _ & R0). destruct (quiet_carried _ _ _ _ _ Q (C w n dir f1 S)) as (-> & _ & R2).
  split; [auto|]. intros q. rewrite R2, R0.
  destruct (in_dec (list_eq_dec string_dec) q (map fst (okSteps (planOf w n dir fs)))) as [I|I]; [now apply written_hit|].
  rewrite !written_miss by auto. pose proof (C (setFails fl w) n dir f eq_refl) as C1. apply (carried_other _ _ _ _ _ q C1).
  intros J. apply I. symmetry in E0. apply planResult_ok in E0.
  change (planOf (setFails fl w) n dir fs) with (planOf w n dir fs) in J. rewrite E0 in J. unfold known in J. rewrite map_map in J. exact J.
Qed.
(** Building twice is building once. *)
Theorem again : forall w m n dir names f f0, quiet w -> apart w dir names f -> build w m n dir names f = (Ok tt, f0) ->
  fst (build w m n dir names f0) = Ok tt /\ forall q, fread (snd (build w m n dir names f0)) q = fread f0 q.
Proof.
  intros w m n dir names f f0 Q A B. pose proof (repaired w m n dir names f f0 (bFails w) Q A B) as R. cbv zeta in R.
  replace (setFails (bFails w) w) with w in R by (destruct w; reflexivity). rewrite B in R. exact R.
Qed.

(** * No file goes away *)

Definition grows (f g : fsys) : Prop := forall q, fread f q <> None -> fread g q <> None.
Lemma grows_then : forall x k f, grows f (snd x) -> (forall g, grows g (snd (k g))) -> grows f (snd (andThen x k)).
Proof. intros [u g] k f H K. unfold andThen. cbn in *. destruct u; cbn; auto. intros q N. apply K, H, N. Qed.
Lemma grows_given : forall A (x : outcome A) f k, (forall a, grows f (snd (k a))) -> grows f (snd (given x f k)).
Proof. intros A [] f k K; cbn; auto; intros q N; exact N. Qed.
Lemma grows_write : forall fails p b f, grows f (snd (writeFile fails p b f)).
Proof.
  intros fails p b f q N. unfold writeFile. destruct (fails (fcount f)) as [[e [x|]]|]; cbn; auto; unfold putFile; destruct (path_eqb q p); auto; discriminate.
Qed.
Lemma grows_vectors : forall fails namer d vs f, grows f (snd (writeVectors fails namer d vs f)).
Proof.
  intros fails namer d vs. induction vs as [|v vs IH]; intros f; cbn [writeVectors]; [intros q N; exact N|].
  apply grows_then; [apply grows_write|exact IH].
Qed.
Lemma grows_corpus : forall fails namer base c f, grows f (snd (writecorpus fails namer base c f)).
Proof.
  intros fails namer base c. induction c as [|s c IH]; intros f; cbn [writecorpus]; [intros q N; exact N|].
  apply grows_then; [intros q N; unfold mkdirAll; destruct (fails (fcount f)) as [[? ?]|]; exact N|].
  intros g. apply grows_then; [apply grows_vectors|exact IH].
Qed.
Theorem nothing_removed : forall w m n dir names f q, fread f q <> None -> fread (snd (build w m n dir names f)) q <> None.
Proof.
  intros w m n dir names f. change (grows f (snd (build w m n dir names f))). unfold build.
  destruct names as [|nm rest]; [intros q N; exact N|]. destruct (parseFiles _ _ _) as [x|]; [|intros q N; exact N].
  apply grows_given. intros fs. unfold Package, PackageWith. apply grows_given. intros b. apply grows_then; [apply grows_write|].
  intros f1. destruct (notImplemented _); [intros q N; exact N|]. apply grows_given. intros c. apply grows_then; [apply grows_corpus|].
  intros f2. apply grows_given. intros t. apply grows_then; [apply grows_write|]. intros f3. apply grows_given. intros z. apply grows_write.
Qed.

(** * Other random numbers *)

(** A file of the corpus that holds the data it is named after keeps it, unless
    the hash has a collision. *)
Theorem corpus_kept : forall w m n dir names f nm d, quiet w -> fread f (corpusDir dir nm (bNamer w d)) = Some d ->
  fread (snd (build w m n dir names f)) (corpusDir dir nm (bNamer w d)) = Some d \/ exists d', d' <> d /\ bNamer w d' = bNamer w d.
Proof.
  intros w m n dir names f nm d Q H.
  destruct (build_by_sources w m names f) as [(x & _ & E)|(fs & _ & _ & _ & C)]; [rewrite (E w n dir f eq_refl); now left|].
  destruct (quiet_carried _ _ _ _ _ Q (C w n dir f eq_refl)) as (_ & _ & R). rewrite R.
  destruct (written (okSteps (planOf w n dir fs)) (fread f) (corpusDir dir nm (bNamer w d))) as [d'|] eqn:W.
  - destruct (list_eq_dec Z.eq_dec d' d) as [->|N]; [now left|]. right. exists d'. split; auto.
    apply written_or in W as [W|W]; [|congruence]. apply okSteps_in in W. unfold planOf, packagePlan, corpusDir in W.
    destruct W as [W|W]; [injection W as W _; apply app_inv_head in W; discriminate|]. destruct (notImplemented _); [destruct W|].
    destruct (GenerateFiles _ _ _ _ _ _ _) as [c|e|y|]; try (destruct W as [W|[]]; injection W as W _; apply app_inv_head in W; discriminate).
    apply in_app_or in W as [W|[W|[W|[]]]]; try (injection W as W _; apply app_inv_head in W; discriminate).
    unfold known in W. apply in_map_iff in W as ([p b] & W & J). injection W as W1 W2. apply corpusFiles_in in J as (u & v & _ & _ & E1 & E2).
    cbn [fst snd] in *. rewrite W1, <- app_assoc in E1. apply app_inv_head in E1. injection E1 as _ E1. congruence.
  - exfalso. destruct (in_dec (list_eq_dec string_dec) (corpusDir dir nm (bNamer w d)) (map fst (okSteps (planOf w n dir fs)))) as [I|I].
    + rewrite (written_hit _ _ (fun _ => Some []) _ I) in W. clear -W.
      assert (G : forall l r q, r q <> None -> written l r q <> None).
      { induction l as [|[p b] l IH]; intros r q N; cbn; auto. apply IH. destruct (path_eqb q p); auto. discriminate. }
      revert W. apply G. discriminate.
    + rewrite written_miss in W by auto. congruence.
Qed.

(** The generated code does not depend on random numbers, nor on the order in
    which maps are traversed: built again, it is the same. *)
Theorem code_stays : forall w w' m m' n n' dir names f f1, build w m n dir names f = (Ok tt, f1) -> apart w dir names f ->
  bCamel w' = bCamel w -> bRender w' = bRender w -> bLocate w' = bLocate w -> all_valid (bOrders1 w) -> all_valid (bOrders1 w') -> quiet w' ->
  fread (snd (build w' m' n' dir names f1)) (dir ++ ["gen-marshallers.go"]) = fread f1 (dir ++ ["gen-marshallers.go"]).
Proof.
  intros w w' m m' n n' dir names f f1 B A EC ER EL V V' Q.
  destruct (build_ok w m n dir names f f1 B) as (fs & p & b & R & M & RE & RM & _).
  destruct (build_by_sources w' m' names f1) as [(x & _ & E)|(fs' & _ & _ & R' & C)]; [now rewrite (E w' n' dir f1 eq_refl)|].
  assert (fs' = fs).
  { assert (S : forall name, In name names -> inputs w' f1 name = inputs w f name).
    { intros name I. pose proof (sources_stay w m n dir names f A name I) as E. rewrite B in E. cbn in E. rewrite <- E. unfold inputs. now rewrite EL. }
    assert (R2 : Forall2 (readAs (inputs w f)) names fs').
    { clear -R' S. induction R' as [|x y l l' H _ IH]; constructor.
      - destruct H as (data & D & H). exists data. split; auto. rewrite <- D. symmetry. apply S. now left.
      - apply IH. intros; apply S; now right. }
    apply files_ok in R, R2. pose proof (filesReturn_fun _ _ _ _ R R2). congruence. }
  subst fs'. destruct (quiet_carried _ _ _ _ _ Q (C w' n' dir f1 eq_refl)) as (_ & _ & RD). rewrite RD, RM.
  unfold planOf, packagePlan. rewrite EC, (marshallers_same (bCamel w) (bOrders1 w') (bOrders1 w) fs V' V), M, ER. cbn [bind]. rewrite RE. cbn [okSteps written].
  apply written_in.
  - intros b' I. apply okSteps_in in I. exfalso. destruct (notImplemented _); [destruct I|].
    assert (NE : forall a c : string, a <> c -> dir ++ [a] <> dir ++ [c]) by (intros a c AC E; apply app_inv_head in E; congruence).
    destruct (GenerateFiles _ _ _ _ _ _ _) as [c|e|y|]; try (destruct I as [I|[]]; injection I as I _; revert I; apply NE; discriminate).
    apply in_app_or in I as [I|[I|[I|[]]]]; try (injection I as I _; revert I; apply NE; discriminate).
    unfold known in I. apply in_map_iff in I as ([p' b2] & I & J). injection I as I _. apply corpusFiles_in in J as (u & v & _ & _ & E1 & _).
    rewrite E1 in I. cbn [fst] in I. rewrite <- app_assoc in I. apply app_inv_head in I. discriminate.
  - right. unfold path_eqb. destruct (list_eq_dec string_dec _ _); congruence.
Qed.
