(** The cost of whole calls when structs may contain themselves. *)
From Coq Require Import ZArith String List Bool Lia.
From Coq Require Import ZifyBool ZifyNat.
From Verif Require Import Base Ast IntervalsModel InspectModel InspectSpec InspectProofs GoLang GenModel GenDecode GenCheck
  GenSim GenSimBody GenSimProg GenTerm WireSpec WireProofs PackageSpec PackageProofs PackageFacts GenSafe GoCost CostSpec CostDec CostBody CostInv CostProg CostRec.
Import ListNotations.
Open Scope string_scope.
Open Scope list_scope.
Open Scope Z_scope.

Section Prog.
Variable mem : account.
Variable camel : string -> string.
Variable os : nat -> orders.
Variable fs : list file.
Variable r : resolver.
Variable p : program.
Hypothesis PK : package camel os fs r p.
Variable rank : string -> nat.
Hypothesis Hpr : progress fs r rank.
Hypothesis Het : elementsTake fs r.
Variable most : Z.
Hypothesis Hmost : 0 <= most.
Variable strict : bool.
Hypothesis Hmem : withMemory mem = true -> if strict then countsWithin fs r most else countsBelow fs r most.
Notation pres := (pk_res camel os fs r p PK).
Notation pgen := (pk_gen camel os fs r p PK).
Notation pchk := (pk_checked _ _ _ _ _ PK).
Notation rateT A := (rateT most r (fun _ => A)).
Notation rateM A := (rateM most r (fun _ => A)).
Notation rateS A := (rateS most r (fun _ => A)).
Notation together := (together most fs r).
Notation entry := (entry most fs r).
Notation W := (perCall most fs r rank).
Notation R := (topRank fs rank).
Notation KB := (perByte most fs r rank).
Notation SB := (together W).

Definition noEnv (s : struct) : amap value := combine (scontexts s) (map (fun _ => VNil) (scontexts s)).
Lemma noEnv_names : forall s, map fst (noEnv s) = scontexts s.
Proof. intros s. apply map_fst_combine. now rewrite map_length. Qed.

Lemma base_pos : forall A ctxs t, 0 <= A -> checkBase r ctxs t = true -> 30 <= rateT A t.
Proof.
  intros A ctxs t A0 H. destruct t as [sz cst| | | |nm|b i|b l]; cbn [CostSpec.rateT checkBase] in *; try discriminate; try lia.
  assert (0 <= ranges cst) by (destruct cst; cbn; [apply blen_nonneg|lia]). lia.
Qed.
Lemma base_mono : forall A B ctxs t, A <= B -> checkBase r ctxs t = true -> rateT A t <= rateT B t.
Proof. intros A B ctxs t L H. destruct t as [sz cst| | | |nm|b i|b l]; cbn [CostSpec.rateT checkBase] in *; try discriminate; lia. Qed.
Lemma type_mono : forall A B cenv F t, A <= B -> simType camel r cenv F t -> rateT A t <= rateT B t.
Proof.
  intros A B cenv F t L H. destruct t as [sz cst| | | |nm|b i|b l]; try (apply (base_mono A B (map fst cenv)); [exact L|exact H]).
  - destruct H as [C G]. pose proof (base_mono A B _ b L C). cbn [CostSpec.rateT]. unfold goodCount in G. unfold countOf.
    destruct (int_value (Constant r) i); [nia|discriminate].
  - assert (C : checkBase r (map fst cenv) b = true) by (destruct l as [[]|]; cbn in H; tauto).
    pose proof (base_mono A B _ b L C). destruct l as [[]|]; cbn [CostSpec.rateT]; lia.
Qed.
(** A field is no dearer than the members it is in. *)
Lemma field_le : forall A cenv fl, 0 <= A -> (forall nm t, In (nm, t) fl -> simType camel r cenv (camel nm) t) ->
  forall m, incl (fieldsM m) fl -> forall nm t, In (nm, t) (fieldsM m) -> rateT A t <= rateM A m.
Proof.
  intros A cenv fl A0 T. induction m as [nm t|u tag len cs IH| | |] using member_ind'; intros I nm' t' J; cbn [fieldsM] in J.
  - destruct J as [E|[]]. injection E as -> ->. cbn [CostSpec.rateM]. lia.
  - apply in_flat_map in J as ([l ms] & J1 & J2). apply in_flat_map in J2 as (m & J2 & J3).
    rewrite Forall_forall in IH. specialize (IH _ J1). cbn [ucase_members] in IH. rewrite Forall_forall in IH.
    assert (IM : forall m', In m' ms -> incl (fieldsM m') fl).
    { intros m' Im y Hy. apply I. cbn [fieldsM]. apply in_flat_map. exists (UCase l ms). split; auto. apply in_flat_map. eauto. }
    specialize (IH _ J2 (IM _ J2) _ _ J3).
    assert (MP : forall m', In m' ms -> 0 <= rateM A m') by (intros; eapply ratePos; eauto).
    pose proof (sum_in (rateM A) ms m MP J2). cbn [CostSpec.rateM]. rewrite (cases_split r most A cs).
    assert (0 <= sum lists cs).
    { apply sum_nonneg. intros [[l0|] ms0] _; cbn [lists ranges]; [pose proof (blen_nonneg l0)|]; lia. }
    assert (BP : forall c, In c cs -> 0 <= bodies r most A c).
    { apply (bodiesPos camel r cenv most Hmost fl T A cs A0). intros y Hy. apply I. exact Hy. }
    pose proof (sum_in (bodies r most A) cs (UCase l ms) BP J1) as SI. cbn [bodies] in SI. lia.
  - destruct J.
  - destruct J.
  - destruct J.
Qed.

Lemma own_in : forall s, In s (ownStructs fs) <-> In s (definedStructs fs).
Proof. reflexivity. Qed.
Lemma rank_top : forall s, In s (definedStructs fs) -> (rank (sname s) <= R)%nat.
Proof.
  intros s I. unfold topRank. pose proof (proj1 (list_max_le (map (fun s => rank (sname s)) (ownStructs fs)) _) (Nat.le_refl _)) as F.
  rewrite Forall_forall in F. apply F. apply in_map_iff. exists s. auto.
Qed.

Lemma rateS_pos : forall A s, 0 <= A -> In s (definedStructs fs) ->
  0 <= sum (rateM A) (members_of s) /\ 20 + sum (fun f => fieldCells r (snd f)) (flds s) + blen (scontexts s) + sum (rateM A) (members_of s) = rateS A s /\ 0 <= rateS A s.
Proof.
  intros A s A0 I. destruct (struct_types camel os fs r p PK s (noEnv s) I (noEnv_names s)) as [T _].
  assert (X : 0 <= sum (rateM A) (members_of s)).
  { eapply (sumM_pos camel r (noEnv s)); eauto. intros y Hy. exact Hy. }
  pose proof (cells_pos camel os fs r p PK s I). pose proof (blen_nonneg (scontexts s)).
  split; auto. split; [reflexivity|]. unfold CostSpec.rateS. change (flat_map allFields (members_of s)) with (flds s). lia.
Qed.
Lemma together_pos : forall A, 0 <= A -> 0 <= together A.
Proof. intros A A0. apply sum_nonneg. intros s I. apply rateS_pos; auto. Qed.
Lemma together_in : forall A s, 0 <= A -> In s (definedStructs fs) -> rateS A s <= together A.
Proof. intros A s A0 I. apply (sum_in (rateS A)); auto. intros x J. apply rateS_pos; auto. Qed.
Lemma entry_pos : forall k, 0 <= entry k.
Proof. induction k as [|k IH]; cbn [CostSpec.entry]; [lia|]. pose proof (together_pos _ IH). lia. Qed.
Lemma entry_mono : forall i j, (i <= j)%nat -> entry i <= entry j.
Proof. intros i j L. induction L; [lia|]. cbn [CostSpec.entry]. pose proof (together_pos _ (entry_pos m)). lia. Qed.
Lemma W_pos : 0 <= W. Proof. apply entry_pos. Qed.

(** What bytes pay for beyond the call that takes them. *)
Definition bonus (k : nat) : Z := (Z.of_nat R - Z.of_nat k + 1) * SB.

Definition priced (m : nat) : Prop := forall s fs0 args c, In s (definedStructs fs) ->
  calls camel r strict s fs0 args c ->
  decStruct camel r m s fs0 (combine (scontexts s) args) c <> stuck ->
  costMethod mem p m (VStruct (camel (sname s)) fs0) (VBytes c) args
    + sum (fun f => fieldCells r (snd f)) (flds s) + blen (scontexts s)
    <= entry (S (rank (sname s))) + pay KB (bonus (rank (sname s))) (used (decStruct camel r m s fs0 (combine (scontexts s) args) c) c).

Lemma struct_bound : forall m, priced m.
Proof.
  pose proof W_pos as W0. pose proof (together_pos W W0) as SB0.
  induction m as [|m IH]; intros s fs0 args c I [LA SH TY TC OC] NS.
  all: destruct (program_struct camel r fs p pgen pchk s I) as (ds & f & ct & Hds & Hf & Hct & Lt & Lm & Lc).
  all: pose proof (rank_top s I) as RT; pose proof (entry_pos (rank (sname s))) as E0; set (k := rank (sname s)) in *;
    set (A := entry k) in *; destruct (rateS_pos A s E0 I) as (SA0 & RSA & RA0); destruct (rateS_pos W s W0 I) as (SW0 & RSW & RW0);
    pose proof (together_in A s E0 I) as TA; pose proof (together_in W s W0 I) as TW;
    pose proof (cells_pos camel os fs r p PK s I) as CL0; pose proof (blen_nonneg (scontexts s)) as XC; pose proof (blen_nonneg c) as BC;
    assert (EK : entry (S k) = A + together A) by reflexivity;
    assert (BK : SB <= bonus k /\ bonus k + SB + 3 <= KB) by (unfold bonus, perByte; nia).
  { cbn [costMethod decStruct used]. rewrite Lm. pose proof (pay_pos KB (bonus k) (blen c) ltac:(lia)). lia. }
  assert (DF : defines fs s) by (apply defines_in; auto). pose proof (proj2 OC) as B.
  set (cenv := combine (scontexts s) args) in *.
  assert (MF : map fst cenv = scontexts s) by (apply map_fst_combine; auto).
  destruct (struct_types camel os fs r p PK s cenv I MF) as [G1 G2].
  pose proof (check_struct camel r fs pchk s I) as CS. unfold checkStruct in CS.
  apply andb_true_iff in CS as [CS SC]. apply andb_true_iff in CS as [CS _].
  apply andb_true_iff in CS as [_ ND]. apply nodupb_NoDup in ND.
  assert (ND' : NoDup (map (fun f => camel (fst f)) (flds s))).
  { unfold flds. rewrite fieldNames_list, map_map in ND. exact ND. }
  cbn [costMethod decStruct]. rewrite Lm.
  unfold parseFunc in Hf. apply bind_ok in Hf as (rv & Hrv & Hf). apply bind_ok in Hf as (ms & Hms & Hf). injection Hf as <-.
  unfold checkScope in SC. rewrite Hrv in SC.
  apply andb_true_iff in SC as [SC S4]. apply andb_true_iff in SC as [SC S3]. apply andb_true_iff in SC as [S1 S2].
  set (locs := "cur" :: "data" :: "err" :: flat_map localsM (members_of s)) in *.
  apply negb_true_iff, memb_notin in S1. apply negb_true_iff, memb_notin in S3.
  pose proof (proj1 (disjointb_spec _ _) S2) as S2'.
  assert (HC1 : forall x v, alookup x cenv = Some v -> ~ In x locs /\ x <> rv).
  { intros x v H. apply alookup_some_in in H. apply (in_map fst) in H. cbn [fst] in H. rewrite MF in H.
    split; [auto|]. intros ->. auto. }
  cbn [frecv fparams fbody].
  set (e0 := (rv, VStruct (camel (sname s)) fs0) :: ("data", VBytes c) :: combine (scontexts s) args).
  cbn [app]. rewrite costs_cons, decl_cost by reflexivity. cbn [exec eval esize].
  assert (ED : alookup "data" e0 = Some (VBytes c)).
  { unfold e0. cbn [alookup]. destruct (String.eqb_spec "data" rv) as [E|]; [|reflexivity].
    exfalso. apply S1. rewrite <- E. cbn; auto. }
  rewrite ED. cbn [lift]. rewrite costs_app.
  assert (M0 : menv cenv c rv (camel (sname s)) (("cur", VBytes c) :: e0) fs0 c).
  { assert (RC : rv <> "cur") by (intros E; apply S1; rewrite E; cbn; auto).
    split; [split|].
    - reflexivity.
    - cbn [alookup]. exact ED.
    - intros x v H. destruct (HC1 _ _ H) as [N1 N2]. unfold e0. cbn [alookup].
      destruct (String.eqb_spec x "cur") as [->|]; [exfalso; apply N1; cbn; auto|].
      destruct (String.eqb_spec x rv); [congruence|].
      destruct (String.eqb_spec x "data") as [->|]; [exfalso; apply N1; cbn; auto|]. exact H.
    - unfold e0. cbn [alookup]. destruct (String.eqb_spec rv "cur"); [congruence|].
      now rewrite String.eqb_refl. }
  assert (HCO : forall nm s' c' fields args', Struct r nm = Some s' -> Extern s' = false ->
    ctxArgs cenv (scontexts s') = Ok args' -> alookup (camel nm) (ptypes p) = Some fields ->
    blen c' < two63 -> onBytes (decCall camel r m) nm cenv c' <> stuck -> (rank nm <= R)%nat /\
    costMethod mem p m (VStruct (camel nm) (zeros fields)) (VBytes c') args' + alloc mem (cellsOf fields) + blen (scontexts s')
      <= entry (S (rank nm)) + pay KB (bonus (rank nm)) (used (onBytes (decCall camel r m) nm cenv c') c')).
  { intros nm s' c' fields args' HS' HE' HA' HF' B' N'. apply onBytes_live in N' as N2. destruct N2 as [AB EB]. rewrite EB in *. clear EB.
    destruct (pres _ _ HS' HE') as [SN I'].
    destruct (program_struct camel r fs p pgen pchk s' I') as (ds' & f' & ct' & Hds' & _ & _ & Lt' & _ & _).
    rewrite SN in Lt'. rewrite HF' in Lt'. injection Lt' as ->.
    assert (DE : decCall camel r m nm cenv c' =
      ('(fs1, c1) <- decStruct camel r m s' (zeros ds') (combine (scontexts s') args') c' ;; Ok (VStruct (camel nm) fs1, c1))).
    { destruct m; cbn [decCall decStruct]; rewrite HS', Hds'; cbn [bind]; rewrite HA'; reflexivity. }
    rewrite DE in *. split; [rewrite <- SN; apply rank_top; auto|].
    pose proof (IH s' (zeros ds') args' c' I' (nested_calls camel os fs r p PK strict s' ds' cenv _ args' c' I' Hds' TC MF HA' (conj AB B')) (stuck_bind _ _ N')) as X.
    rewrite SN in X. unfold flds in X. rewrite <- (structDecl_cells camel r s' ds' Hds') in X.
    match goal with |- _ <= _ + pay _ _ ?u => replace u with (used (decStruct camel r m s' (zeros ds') (combine (scontexts s') args') c') c')
      by (destruct (decStruct camel r m s' (zeros ds') (combine (scontexts s') args') c') as [[]| | |]; reflexivity) end.
    assert (0 <= cellsOf ds') .
    { rewrite (structDecl_cells camel r s' ds' Hds'). apply (cells_pos camel os fs r p PK); auto. }
    assert (alloc mem (cellsOf ds') <= cellsOf ds') by (unfold alloc; destruct (withMemory mem); lia).
    lia. }
  assert (FLE : forall nm t, In (nm, t) (flds s) -> CostSpec.rateT most r (fun _ => W) t <= SB).
  { intros nm t J. unfold flds in J. apply in_flat_map in J as (m0 & J1 & J2).
    assert (IM : forall m', In m' (members_of s) -> incl (fieldsM m') (flds s)) by (intros m' Im y Hy; apply in_flat_map; eauto).
    pose proof (field_le W cenv (flds s) W0 G1 m0 (IM _ J1) nm t J2).
    pose proof (sum_in (CostSpec.rateM most r (fun _ => W)) (members_of s) m0 ltac:(intros; eapply ratePos; eauto) J1). lia. }
  assert (AW : A <= W) by (apply entry_mono; lia).
  assert (BS : msbound mem camel r (ptypes p) (callMethod p m) (costMethod mem p m) (onBytes (decCall camel r m)) m cenv c rv (camel (sname s)) locs (known camel r strict s) KB (flds s)
    (sum (CostSpec.rateM most r (fun _ => A)) (members_of s)) (bonus k + SB - sum (CostSpec.rateM most r (fun _ => W)) (members_of s)) (members_of s)).
  { eapply (body_bound mem camel r (ptypes p) (callMethod p m) (costMethod mem p m) (onBytes (decCall camel r m)) m cenv c rv (camel (sname s)) locs)
      with (most := most) (inv := known camel r strict s) (W := W) (bw := SB) (rank := rank) (k := k).
    - unfold locs; cbn; tauto.
    - exact S1.
    - exact HC1.
    - intros nm s' c' X Y. exact (guarded_sim camel os fs r p PK m nm s' cenv c' X Y).
    - apply guarded_left.
    - apply guarded_less.
    - exact Hmost.
    - apply known_part.
    - exact ND'.
    - exact G1.
    - exact (frugal_fields mem camel os fs r p PK Het most Hmost strict Hmem s cenv I TC).
    - intros mb g c1 g' c2 IN KN _ D. exact (known_next camel os fs r p PK strict s m cenv c I mb g c1 g' c2 IN KN D).
    - exact W0.
    - lia.
    - intros nm s' c' fields args' HS' HE' HA' HF' B' N'. destruct (HCO nm s' c' fields args' HS' HE' HA' HF' B' N') as [RN X].
      pose proof (entry_mono (S (rank nm)) (S R) ltac:(lia)). fold W in H.
      pose proof (pay_anti KB SB (bonus (rank nm)) (used (onBytes (decCall camel r m) nm cenv c') c') ltac:(unfold bonus; nia)).
      unfold perCall in *. lia.
    - exact FLE.
    - intros mb fs1 c1 fs2 c2 KN B1 E1 D1. rewrite member_same in D1 by (try exact (proj2 KN); intros *; apply call_okc). eapply (proj1 (proj2 (eats_less camel r))); eauto.
    - exact E0.
    - lia.
    - intros nm s' c' fields args' RK HS' HE' HA' HF' B' N'. destruct (HCO nm s' c' fields args' HS' HE' HA' HF' B' N') as [RN X].
      pose proof (entry_mono (S (rank nm)) k ltac:(lia)).
      pose proof (pay_anti KB (bonus k + SB) (bonus (rank nm)) (used (onBytes (decCall camel r m) nm cenv c') c') ltac:(unfold bonus; nia)).
      unfold A. lia.
    - intros nm t J. pose proof (FLE nm t J). pose proof (type_mono A W _ _ t AW (G1 nm t J)). lia.
    - intros y Hy. exact Hy.
    - apply (Hpr s DF).
    - lia. }
  specialize (BS ms (("cur", VBytes c) :: e0) fs0 c Hms).
  specialize (BS ltac:(intros y Hy; exact Hy) ltac:(intros y Hy; unfold locs; cbn; auto) G2 M0 SH (conj TY OC) B).
  rewrite members_same in BS by (auto; intros *; apply call_okc). specialize (BS NS).
  cbn [decStruct] in BS.
  set (U := used (decMembers camel r (decCall camel r m) m cenv (blen c) (members_of s) fs0 c) c) in *.
  assert (RTN : forall e, costs mem (ptypes p) (callMethod p m) (costMethod mem p m) m [SReturn cur ENil] e <= 3).
  { intros e. rewrite costs_cons. change (cost mem (ptypes p) (callMethod p m) (costMethod mem p m) m (SReturn cur ENil) e) with 3.
    destruct (exec _ _ _ _ e) as [? []]; rewrite ?costs_nil; lia. }
  assert (FIN : costs mem (ptypes p) (callMethod p m) (costMethod mem p m) m ms (("cur", VBytes c) :: e0)
    + match execs (ptypes p) (callMethod p m) m ms (("cur", VBytes c) :: e0) with
      | (e1, SNext) => costs mem (ptypes p) (callMethod p m) (costMethod mem p m) m [SReturn cur ENil] e1
      | _ => 0 end <= sum (CostSpec.rateM most r (fun _ => A)) (members_of s) + pay KB (bonus k + SB - sum (CostSpec.rateM most r (fun _ => W)) (members_of s)) U + 3).
  { destruct (execs _ _ _ ms _) as [e1 []]; try specialize (RTN e1); lia. }
  pose proof (pay_anti KB (bonus k) (bonus k + SB - sum (CostSpec.rateM most r (fun _ => W)) (members_of s)) U ltac:(lia)).
  lia.
Qed.

Lemma parse_left : forall n s fs0 args data, validCall camel fs r s fs0 data args ->
  let u := used (decStruct camel r n s fs0 (contextsOf s args) data) data in 0 <= u <= blen data.
Proof.
  intros n s fs0 args data VC. cbv zeta. pose proof (proj2 (vc_data _ _ _ _ _ _ _ VC)) as B. pose proof (blen_nonneg data).
  split.
  - apply used_nonneg. intros v' c' X. destruct n; [discriminate|]. cbn [decStruct] in X. eapply decMembers_left; eauto. intros *; apply decCall_left.
  - destruct (decStruct camel r n s fs0 (contextsOf s args) data) as [[v c']| | |]; cbn [used]; try lia. pose proof (blen_nonneg c'). lia.
Qed.

Lemma call_bound : forall n s fs0 data args, validCall camel fs r s fs0 data args -> (strict = true -> settled camel r s fs0) ->
  costMethod mem p n (VStruct (camel (sname s)) fs0) (VBytes data) args
    + sum (fun f => fieldCells r (snd f)) (flds s) + blen (scontexts s)
    <= W + KB * used (decStruct camel r n s fs0 (contextsOf s args) data) data.
Proof.
  intros n s fs0 data args VC ST.
  assert (I : In s (definedStructs fs)) by (apply defines_in, VC).
  assert (NS : decStruct camel r n s fs0 (contextsOf s args) data <> stuck).
  { intros E. apply (proj1 (never_stuck camel os fs r p PK s fs0 data args VC n)). now apply (run_panic camel os fs r p PK s fs0 data args VC). }
  pose proof (struct_bound n s fs0 args data I
    (valid_calls camel os fs r p PK strict s fs0 data args VC ST) NS) as X.
  pose proof (rank_top s I) as RT. pose proof (entry_mono (S (rank (sname s))) (S R) ltac:(lia)) as EM.
  pose proof (parse_left n s fs0 args data VC) as U. cbv zeta in U.
  fold (contextsOf s args) in X. set (u := used _ _) in *.
  pose proof (together_pos W W_pos) as SB0.
  assert (0 <= bonus (rank (sname s))) by (unfold bonus; nia).
  assert (pay KB (bonus (rank (sname s))) u <= KB * u).
  { unfold pay. destruct (Z.leb_spec u 0); [|lia]. assert (u = 0) as -> by lia. lia. }
  unfold perCall in *. lia.
Qed.

Lemma KB_pos : 0 <= KB.
Proof. pose proof (together_pos W W_pos). unfold perByte. nia. Qed.

Theorem recursive_cost_all : forall n s fs0 data args, validCall camel fs r s fs0 data args -> (strict = true -> settled camel r s fs0) ->
  costMethod mem p n (VStruct (camel (sname s)) fs0) (VBytes data) args <= W + KB * blen data.
Proof.
  intros n s fs0 data args VC ST. pose proof (call_bound n s fs0 data args VC ST) as X.
  pose proof (parse_left n s fs0 args data VC) as U. cbv zeta in U.
  assert (I : In s (definedStructs fs)) by (apply defines_in, VC).
  pose proof (cells_pos camel os fs r p PK s I). pose proof (blen_nonneg (scontexts s)). pose proof KB_pos. nia.
Qed.
Theorem recursive_cost_taken : forall n s fs0 data args fs1 rest, validCall camel fs r s fs0 data args -> (strict = true -> settled camel r s fs0) ->
  runParse camel p n s fs0 data args = (VStruct (camel (sname s)) fs1, SRet (VBytes rest) VNil) ->
  costMethod mem p n (VStruct (camel (sname s)) fs0) (VBytes data) args <= W + KB * (blen data - blen rest).
Proof.
  intros n s fs0 data args fs1 rest VC ST H. pose proof (call_bound n s fs0 data args VC ST) as X.
  assert (I : In s (definedStructs fs)) by (apply defines_in, VC).
  apply (run_success camel os fs r p PK s fs0 data args VC) in H. rewrite H in X. cbn [used] in X.
  pose proof (cells_pos camel os fs r p PK s I). pose proof (blen_nonneg (scontexts s)). lia.
Qed.
Theorem recursive_cost_new : forall n s data args, validCall camel fs r s (blank camel (Constant r) s) data args ->
  costCtor mem p n (camel (sname s)) (VBytes data) args <= W + 20 + KB * blen data.
Proof.
  intros n s data args VC. pose proof (call_bound n s _ data args VC (fun _ => blank_settled camel r s)) as X.
  pose proof (parse_left n s _ args data VC) as U. cbv zeta in U.
  assert (I : In s (definedStructs fs)) by (apply defines_in, VC).
  destruct (program_struct camel r fs p pgen pchk s I) as (ds & f & ct & Hds & Hf & Hct & Lt & Lm & Lc).
  pose proof (ctor_cost mem camel os fs r p PK n s ds data args I (args_len camel r s args (vc_args _ _ _ _ _ _ _ VC)) Hds) as C.
  rewrite <- (zeros_blank camel r s ds Hds) in *.
  pose proof (cells_pos camel os fs r p PK s I) as CP.
  unfold flds in *. rewrite <- (structDecl_cells camel r s ds Hds) in *. pose proof KB_pos.
  assert (alloc mem (cellsOf ds) <= cellsOf ds) by (unfold alloc; destruct (withMemory mem); lia). nia.
Qed.
End Prog.
