(** The leaves of test vector generation: random bytes, integers, the choice of
    a tag value. *)
From Coq Require Import ZArith String List Bool Lia ZifyBool ZifyNat Permutation.
From Verif Require Import Base Ast IntervalsModel IntervalsSpec IntervalsProofs InspectModel InspectSpec InspectProofs BranchProofs RandomProofs GoLang GenModel GenCheck
  WireSpec WireProofs WireFacts TvModel TvConstraints TvHeap TvFacts TvClass TvGood.
Import ListNotations.
Open Scope string_scope.
Open Scope list_scope.
Open Scope Z_scope.

(** Only the random source moved. *)
Definition sameH (g g' : gst) : Prop := maps g' = maps g /\ cur g' = cur g /\ bufs g' = bufs g.
Lemma sameH_refl : forall g, sameH g g.
Proof. repeat split. Qed.
Lemma sameH_trans : forall a b c, sameH a b -> sameH b c -> sameH a c.
Proof. intros a b c (A & B & C) (D & E & F). repeat split; congruence. Qed.

Lemma Intn_spec : forall n g d g', 0 < n -> Intn n g = (d, g') -> 0 <= d < n /\ sameH g g'.
Proof.
  intros n g d g' N H. unfold Intn, draw in H. inversion H; subst; clear H. split; [apply Z.mod_pos_bound; lia|repeat split].
Qed.
Lemma randRead_spec : forall n g b g', randRead n g = (b, g') -> all_bytes b /\ List.length b = n /\ sameH g g'.
Proof.
  induction n as [|n IH]; intros g b g' H; cbn [randRead] in H.
  - inversion H; subst. split; [constructor|]. split; [reflexivity|apply sameH_refl].
  - destruct (Intn 256 g) as [x g1] eqn:E. apply Intn_spec in E as (B & S1); [|lia].
    destruct (randRead n g1) as [bs g2] eqn:E2. apply IH in E2 as (AB & L & S2). inversion H; subst.
    split; [constructor; auto|]. split; [cbn; lia|]. eapply sameH_trans; eauto.
Qed.
Lemma randLetters_spec : forall n g b g', randLetters n g = (b, g') -> ~ In 0 b /\ sameH g g'.
Proof.
  induction n as [|n IH]; intros g b g' H; cbn [randLetters] in H.
  - inversion H; subst. split; [intros []|apply sameH_refl].
  - destruct (Intn 26 g) as [x g1] eqn:E. apply Intn_spec in E as (B & S1); [|lia].
    destruct (randLetters n g1) as [bs g2] eqn:E2. apply IH in E2 as (NB & S2). inversion H; subst.
    split; [intros [F|F]; [change (97 + x = 0) in F; lia|auto]|]. eapply sameH_trans; eauto.
Qed.
Lemma randbtw_spec : forall a b g x g', a <= b -> randbtw a b g = (x, g') -> a <= x <= b /\ sameH g g'.
Proof.
  intros a b g x g' L H. unfold randbtw in H. destruct (Intn (b - a + 1) g) as [d g1] eqn:E. apply Intn_spec in E as (B & S); [|lia].
  inversion H; subst. split; [lia|auto].
Qed.
Lemma randbytes_spec : forall a b g x g', a <= b -> randbytes a b g = (x, g') -> all_bytes x /\ sameH g g'.
Proof.
  intros a b g x g' L H. unfold randbytes in H. destruct (randbtw a b g) as [n g1] eqn:E. apply randbtw_spec in E as (B & S1); auto.
  apply randRead_spec in H as (AB & _ & S2). split; auto. eapply sameH_trans; eauto.
Qed.
Lemma randnulterm_spec : forall a b g x g', a <= b -> randnulterm a b g = (x, g') -> (exists s, x = s ++ [0] /\ ~ In 0 s) /\ sameH g g'.
Proof.
  intros a b g x g' L H. unfold randnulterm in H. destruct (randbtw a b g) as [n g1] eqn:E. apply randbtw_spec in E as (B & S1); auto.
  destruct (randLetters (Z.to_nat n) g1) as [s g2] eqn:E2. apply randLetters_spec in E2 as (N & S2). inversion H; subst.
  split; [eauto|]. eapply sameH_trans; eauto.
Qed.

Lemma lowBytes_spec : forall n x, bigEndian (lowBytes n x) (x mod 256 ^ Z.of_nat n) /\ List.length (lowBytes n x) = n.
Proof.
  induction n as [|n IH]; intros x.
  - cbn [lowBytes]. change (256 ^ Z.of_nat 0) with 1. rewrite Z.mod_1_r. split; [constructor|reflexivity].
  - cbn [lowBytes]. destruct (IH (Z.shiftr x 8)) as (B & L). split; [|rewrite app_length, L; cbn; lia].
    rewrite Z.shiftr_div_pow2 in * by lia. change (2 ^ 8) with 256 in *.
    rewrite Nat2Z.inj_succ, Z.pow_succ_r by lia. rewrite Z.rem_mul_r by (try apply Z.pow_nonzero; lia).
    rewrite Z.add_comm. constructor; auto. unfold is_byte. apply Z.mod_pos_bound. lia.
Qed.
Lemma goodSize_cases : forall sz, goodSize sz = true -> sz = 8 \/ sz = 16 \/ sz = 32 \/ sz = 64.
Proof. intros sz H. unfold goodSize in H. lia. Qed.
Lemma intbytes_spec : forall x sz, goodSize sz = true -> 0 <= x < 2 ^ sz -> bigEndian (intbytes x sz) x /\ blen (intbytes x sz) = sz / 8.
Proof.
  intros x sz G X. unfold intbytes. destruct (lowBytes_spec (Z.to_nat (sz / 8)) x) as (B & L). split; [|unfold blen; rewrite L; apply goodSize_cases in G as [->|[->|[->| ->]]]; reflexivity].
  replace (x mod 256 ^ Z.of_nat (Z.to_nat (sz / 8))) with x in B; auto.
  symmetry. apply Z.mod_small. apply goodSize_cases in G as [->|[->|[->| ->]]]; exact X.
Qed.
Lemma intbytes_any : forall x sz, goodSize sz = true -> exists y, bigEndian (intbytes x sz) y /\ blen (intbytes x sz) = sz / 8.
Proof.
  intros x sz G. unfold intbytes. destruct (lowBytes_spec (Z.to_nat (sz / 8)) x) as (B & L). eexists. split; [exact B|].
  unfold blen; rewrite L; apply goodSize_cases in G as [->|[->|[->| ->]]]; reflexivity.
Qed.
Lemma randint_spec : forall sz g b g', goodSize sz = true -> randint sz g = (b, g') -> (exists y, bigEndian b y) /\ blen b = sz / 8 /\ sameH g g'.
Proof.
  intros sz g b g' G H. unfold randint in H. apply randRead_spec in H as (A & L & S). split; [exists (be b); now apply bigEndian_be|].
  split; auto. unfold blen. rewrite L. apply goodSize_cases in G as [->|[->|[->| ->]]]; reflexivity.
Qed.

(** A random element of a set that leaves something out. *)
Lemma randomIn_spec : forall fuel s g x g', wf_set s -> (forall y, Contains s y = true -> y < two63) ->
  randomIn fuel s g = Ok (x, g') -> Contains s x = true /\ sameH g g'.
Proof.
  intros fuel s g x g' W B H. unfold randomIn in H. destruct (RandomWithGenerator fuel s (rnd g)) as [[y rn]| | |] eqn:E; try discriminate.
  cbn in H. inversion H; subst. split; [|repeat split].
  destruct (intervals s) as [|i is] eqn:EI; [unfold RandomWithGenerator in E; rewrite EI in E; discriminate|].
  assert (NE : intervals s <> []) by (rewrite EI; discriminate).
  destruct (random_sound s W NE two63) with (fuel := fuel) (rnd := rnd g) as [F|(z & rz & F & C)].
  - unfold is_u64, two63, two64. lia.
  - destruct (Contains s two63) eqn:C; auto. apply B in C. lia.
  - congruence.
  - rewrite E in F. inversion F; subst. auto.
Qed.

Section Res.
Variable r : resolver.
Notation cv := (Constant r).

Lemma listFits_spec : forall sz l, listFits r sz l = true -> good_list cv l /\ forall x, in_list cv l x -> 0 <= x < 2 ^ sz /\ x < two63.
Proof.
  intros sz l H. unfold listFits in H. rewrite forallb_forall in H. split.
  - apply Forall_forall. intros g I. specialize (H g I). destruct (range_bounds cv g) as [[a b]|] eqn:E; [|discriminate].
    exists a, b. split; auto. lia.
  - intros x (g & a & b & I & E & X). specialize (H g I). rewrite E in H. lia.
Qed.

Lemma coversN_spec : forall l n a b, coversN r n l a b = true -> forall x, a <= x <= b -> in_list cv l x.
Proof.
  intros l. induction n as [|n IH]; intros a b H x X; cbn [coversN] in H; destruct (Z.ltb_spec b a); try lia; try discriminate.
  destruct (find _ l) as [g|] eqn:F; [|discriminate]. apply find_some in F as (I & F). destruct (range_bounds cv g) as [[c d]|] eqn:E; [|discriminate].
  destruct (Z.le_gt_cases x d); [|apply (IH (d + 1) b H); lia]. exists g, c, d. split; auto. split; auto. lia.
Qed.
Lemma covers_spec : forall l a b, covers r l a b = true -> forall x, a <= x <= b -> in_list cv l x.
Proof. intros l a b. apply coversN_spec. Qed.

(** Where the branches come from. *)
Lemma branchLoop_in : forall cs d k bs d' k', Forall (good_case cv) cs -> wf_set d -> branchLoop r cs d k = Ok (bs, d', k') ->
  forall b, In b bs -> In (bcase b) cs /\ wf_set (bset b) /\ exists l, ucase_list (bcase b) = Some l /\
    forall x, Contains (bset b) x = true <-> in_list cv l x.
Proof.
  induction cs as [|c cs IH]; intros d k bs d' k' G W H b I; cbn [branchLoop] in H.
  - inversion H; subst. destruct I.
  - inversion G as [|? ? Gc G']; subst. unfold good_case in Gc. destruct (ucase_list c) as [l|] eqn:L.
    + destruct Gc as (NE & Gl). destruct (Intervals r l) as [s| | |] eqn:EI; try discriminate. cbn [bind] in H.
      destruct (Intervals_ok r l s Gl EI) as (Ws & Cs & Ns). specialize (Ns NE).
      destruct (subtract_correct d s W Ws Ns) as (d1 & Es & W1 & C1). rewrite Es in H. cbn [bind] in H.
      destruct (branchLoop r cs d1 k) as [[[bs1 d2] k2]| | |] eqn:EL; try discriminate. cbn [bind] in H.
      inversion H; subst; clear H. destruct I as [<-|I].
      * cbn [bcase bset]. split; [now left|]. split; auto. exists l. auto.
      * destruct (IH _ _ _ _ _ G' W1 EL b I) as (A & B & C). split; [now right|auto].
    + destruct (IH _ _ _ _ _ G' W H b I) as (A & B & C). split; [now right|auto].
Qed.

(** No integer is listed by two cases. *)
Lemma ranges_apart : forall cs s, Forall (fun c => good_list cv (caseRanges c)) cs -> Intervals r (flat_map caseRanges cs) = Ok s ->
  forall pre c mid d post x, cs = pre ++ c :: mid ++ d :: post -> case_matches cv c x -> case_matches cv d x -> False.
Proof.
  intros cs s G E pre c mid d post x Ecs (l1 & L1 & g1 & a1 & b1 & I1 & R1 & X1) (l2 & L2 & g2 & a2 & b2 & I2 & R2 & X2).
  assert (GL : good_list cv (flat_map caseRanges cs)).
  { clear - G. induction cs as [|c cs IH]; [constructor|]. inversion G; subst. cbn [flat_map]. apply Forall_app. split; [assumption|now apply IH]. }
  destruct (Intervals_correct r _ GL) as [(_ & F)|(NO & _)]; [congruence|]. apply NO.
  apply in_split in I1 as (u1 & v1 & ->). apply in_split in I2 as (u2 & v2 & ->).
  exists (flat_map caseRanges pre ++ u1), g1, (v1 ++ flat_map caseRanges mid ++ u2), g2, (v2 ++ flat_map caseRanges post), a1, b1, a2, b2, x.
  split; auto. rewrite Ecs, !flat_map_app. cbn [flat_map]. rewrite !flat_map_app. cbn [flat_map]. assert (Q1 : caseRanges c = u1 ++ g1 :: v1) by (unfold caseRanges; now rewrite L1).
  assert (Q2 : caseRanges d = u2 ++ g2 :: v2) by (unfold caseRanges; now rewrite L2). rewrite Q1, Q2.
  repeat (rewrite <- ?app_assoc; cbn [app]). reflexivity.
Qed.
Lemma apart_takes : forall cs s c x, Forall (fun c => good_list cv (caseRanges c)) cs -> Intervals r (flat_map caseRanges cs) = Ok s ->
  In c cs -> case_matches cv c x -> takes cv cs x c.
Proof.
  intros cs s c x G E I M. left. apply in_split in I as (pre & post & ->). exists pre, post. split; auto. split; auto.
  apply Forall_forall. intros p Ip Mp. apply in_split in Ip as (p1 & p2 & ->).
  eapply (ranges_apart _ s G E p1 p p2 c post x); auto. rewrite <- app_assoc. reflexivity.
Qed.

(** Every value in a branch takes the case of that branch, and fits the tag. *)
Lemma branches_in : forall s tag cs sz cst bs iv, IntType r tag s = Ok (sz, cst) -> 0 <= sz <= 32 ->
  Forall (fun c => listFits r sz (caseRanges c) = true) cs -> Forall (fun c => ucase_list c <> Some []) cs ->
  Intervals r (flat_map caseRanges cs) = Ok iv -> NewBranches r s tag cs = Ok bs ->
  forall b, In b bs -> In (bcase b) cs /\ wf_set (bset b) /\
    forall x, Contains (bset b) x = true -> 0 <= x < 2 ^ sz /\ takes cv cs x (bcase b).
Proof.
  intros s tag cs sz cst bs iv ET SZ LF NE EI H b I. unfold NewBranches in H. rewrite ET in H. cbn [bind] in H.
  destruct (inttype_correct sz) as (d0 & E0 & W0 & C0); [lia|]. rewrite E0 in H. cbn [bind] in H.
  assert (GL : Forall (fun c => good_list cv (caseRanges c)) cs).
  { eapply Forall_impl; [|exact LF]. intros c L. now apply listFits_spec in L. }
  assert (GC : Forall (good_case cv) cs).
  { apply Forall_forall. intros c Ic. rewrite Forall_forall in GL, NE. specialize (GL c Ic). specialize (NE c Ic). unfold good_case.
    unfold caseRanges in GL. destruct (ucase_list c) as [l|] eqn:L; auto. split; [intros ->; now apply NE|exact GL]. }
  destruct (branchLoop r cs d0 None) as [[[bs1 d] k]| | |] eqn:EL; try discriminate. cbn [bind] in H. inversion H; subst; clear H.
  assert (J : In b bs1 \/ exists c, k = Some c /\ b = mkBranch d c).
  { destruct k as [c|]; auto. apply in_app_iff in I as [I|[<-|[]]]; auto. right. eauto. }
  destruct (branchLoop_spec r _ _ _ _ _ _ GC W0 EL) as (Wd & Cd & _ & K).
  destruct J as [J|(c & -> & ->)].
  - destruct (branchLoop_in _ _ _ _ _ _ GC W0 EL b J) as (Ic & Wb & l & L & C). split; auto. split; auto. intros x X. apply C in X.
    rewrite Forall_forall in LF. specialize (LF _ Ic). unfold caseRanges in LF. rewrite L in LF. destruct (listFits_spec _ _ LF) as (_ & B).
    split; [now apply B|]. eapply apart_takes; eauto. exists l. auto.
  - destruct K as [(K & _)|(c' & K & Ic & L)]; [discriminate|]. inversion K; subst c'. cbn [bcase bset]. split; auto. split; auto.
    intros x X. apply Cd in X as (X & N). split; [now apply C0|]. right. auto.
Qed.
End Res.

Section Enc.
Variable camel : string -> string.
Variable cv : string -> option Z.
Variable sv : string -> option struct.
Variable lenient : Prop.
(** A number of elements, not all empty, reach the end of the extent. *)
Lemma encN_all : forall cenv fs b vs pos d, encN camel cv sv lenient cenv pos fs b vs d [] ->
  exists vs', encAll camel cv sv lenient cenv pos fs b vs' d.
Proof.
  intros cenv fs b. induction vs as [|v vs IH]; intros pos d H; inversion H; subst; [exists []; constructor|].
  match goal with E : encN _ _ _ _ _ _ _ _ vs ?w _ |- _ => apply IH in E as (vs' & E); destruct (list_eq_dec Z.eq_dec (w1 ++ w) []) as [Z|Z] end.
  - rewrite Z. exists []. constructor.
  - exists (v :: vs'). rewrite app_nil_r in *. constructor; auto.
Qed.
End Enc.
