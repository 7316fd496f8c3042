From Coq Require Import ZArith String List Bool Lia.
From Coq Require Import ZifyBool ZifyNat.
From Verif Require Import Base IntervalsModel IntervalsSpec IntervalsProofs.
Import ListNotations.
Open Scope Z_scope.
Ltac Zify.zify_post_hook ::= Z.div_mod_to_equations.

Lemma lor_shift_add : forall n a b, 0 <= n -> 0 <= a < 2 ^ n ->
  Z.lor a (b * 2 ^ n) = a + b * 2 ^ n.
Proof.
  intros n a b Hn Ha.
  assert (L : Z.land a (b * 2 ^ n) = 0).
  { apply Z.bits_inj'. intros k Hk. rewrite Z.land_spec, Z.bits_0.
    destruct (Z_lt_ge_dec k n).
    - rewrite Z.mul_pow2_bits_low by lia. apply andb_false_r.
    - replace a with (a mod 2 ^ n) by (apply Z.mod_small; lia).
      rewrite Z.mod_pow2_bits_high by lia. reflexivity. }
  rewrite Z.add_nocarry_lxor by auto. symmetry. now apply Z.lxor_lor.
Qed.

Lemma randuint64_range : forall r, is_u64 (fst (randuint64 r)).
Proof.
  intros r. unfold randuint64, Int63. cbn [fst snd draws rpos].
  set (a := draws r (rpos r)). set (b := draws r (S (rpos r))).
  rewrite Z.shiftr_div_pow2 by lia. rewrite Z.shiftl_mul_pow2 by lia.
  change (2 ^ 31) with 2147483648. change (2 ^ 32) with 4294967296.
  assert (E : exists q, u64 (b mod two63 * 4294967296) = q * 4294967296 /\ 0 <= q < 4294967296).
  { exists ((b mod two63) mod 4294967296). unfold u64, two63, two64. lia. }
  destruct E as (q & E & Q). rewrite E.
  replace (q * 4294967296) with (q * 2 ^ 32) by reflexivity.
  rewrite lor_shift_add; [|lia|].
  - change (2 ^ 32) with 4294967296. unfold is_u64, two63, two64. lia.
  - change (2 ^ 32) with 4294967296. unfold two63. lia.
Qed.

(** Every 64-bit word can be drawn. *)
Definition word_src (w : Z) : nat -> Z :=
  fun n => if Nat.even n then (w mod 4294967296) * 2147483648 else w / 4294967296.

Lemma randuint64_word : forall w d p, is_u64 w -> Nat.even p = true ->
  d p = word_src w p -> d (S p) = word_src w (S p) ->
  randuint64 (mkRng d p) = (w, mkRng d (S (S p))).
Proof.
  intros w d p Hw Hp H1 H2. unfold randuint64, Int63. cbn [fst snd draws rpos].
  rewrite H1, H2. unfold word_src. rewrite Nat.even_succ. rewrite <- Nat.negb_even, Hp. cbn [negb].
  f_equal. unfold is_u64 in Hw.
  rewrite Z.shiftr_div_pow2 by lia. rewrite Z.shiftl_mul_pow2 by lia.
  change (2 ^ 31) with 2147483648. change (2 ^ 32) with 4294967296.
  replace (u64 ((w / 4294967296) mod two63 * 4294967296)) with ((w / 4294967296) * 2 ^ 32)
    by (change (2 ^ 32) with 4294967296; unfold u64, two63, two64 in *; lia).
  replace ((w mod 4294967296 * 2147483648) mod two63 / 2147483648) with (w mod 4294967296)
    by (unfold two63; lia).
  rewrite lor_shift_add; change (2 ^ 32) with 4294967296; lia.
Qed.

(** The mask is 2^m-1 for some m with n < 2^m. *)
Lemma shrink_spec : forall k j n, 0 <= n < two64 -> 0 <= j <= 64 -> (Z.to_nat j <= k)%nat ->
  (j = 64 \/ n < 2 ^ (j + 1) - 1) ->
  exists j', 0 <= j' <= j /\ shrinkMask k (2 ^ j - 1) n = 2 ^ j' - 1 /\ 2 ^ j' - 1 <= n /\
    (j' = 64 \/ n < 2 ^ (j' + 1) - 1).
Proof.
  induction k as [|k IH]; intros j n Hn Hj Hk Hinv.
  - assert (j = 0) by lia. subst. exists 0. simpl. repeat split; try lia.
  - cbn [shrinkMask]. destruct (n <? 2 ^ j - 1) eqn:E.
    + assert (0 < j) by (destruct (Z.eq_dec j 0); [subst; simpl in E; lia|lia]).
      rewrite Z.shiftr_div_pow2 by lia. change (2 ^ 1) with 2.
      assert (P : 2 ^ j = 2 * 2 ^ (j - 1)) by (rewrite <- Z.pow_succ_r by lia; f_equal; lia).
      assert (0 < 2 ^ (j - 1)) by (apply Z.pow_pos_nonneg; lia).
      replace ((2 ^ j - 1) / 2) with (2 ^ (j - 1) - 1) by lia.
      destruct (IH (j - 1) n) as (j' & A & B & C & D); try lia.
      { right. replace (j - 1 + 1) with j by lia. lia. }
      exists j'. repeat split; auto; lia.
    + exists j. repeat split; auto; lia.
Qed.

Lemma shrink_enough : forall n, 0 <= n < two64 -> shrinkMask 64 max64 n <= n.
Proof.
  intros n Hn. change max64 with (2 ^ 64 - 1).
  destruct (shrink_spec 64 64 n) as (j & _ & E & L & _); auto; try lia.
Qed.

Lemma randMask_spec : forall n, 0 <= n < two64 ->
  exists m, 0 < m <= 64 /\ randMask n = Z.ones m /\ n < 2 ^ m /\ 2 ^ (m - 1) - 1 <= n.
Proof.
  intros n Hn. unfold randMask.
  destruct (shrink_spec 64 64 n) as (j & Hj & E & L & D); auto; try lia.
  change max64 with (2 ^ 64 - 1). rewrite E.
  destruct (Z.eq_dec j 64) as [->|N].
  - exists 64. repeat split; try lia. change (2 ^ 64) with two64. lia.
  - destruct D as [D|D]; [lia|]. exists (j + 1). split; [lia|].
    rewrite Z.shiftl_mul_pow2 by lia. change (2 ^ 1) with 2.
    assert (P : 2 ^ (j + 1) = 2 * 2 ^ j) by (rewrite <- Z.pow_succ_r by lia; reflexivity).
    assert (0 < 2 ^ j) by (apply Z.pow_pos_nonneg; lia).
    assert (2 ^ (j + 1) <= 2 ^ 64) by (apply Z.pow_le_mono_r; lia).
    change (2 ^ 64) with two64 in *.
    replace (u64 ((2 ^ j - 1) * 2)) with ((2 ^ j - 1) * 2 ^ 1)
      by (change (2 ^ 1) with 2; unfold u64; symmetry; apply Z.mod_small; lia).
    rewrite Z.lor_comm. rewrite lor_shift_add by lia.
    rewrite Z.ones_equiv. change (2 ^ 1) with 2.
    replace (j + 1 - 1) with j by lia. repeat split; lia.
Qed.

Lemma reject_sound : forall fuel r m n v r', 0 <= m -> 
  rejectLoop fuel r (Z.ones m) n = Ok (v, r') -> 0 <= v < n.
Proof.
  induction fuel as [|fuel IH]; cbn [rejectLoop]; intros r m n v r' Hm H; [discriminate|].
  destruct (randuint64 r) as [w r1] eqn:E.
  destruct (Z.land w (Z.ones m) <? n) eqn:L.
  - injection H as <- <-. rewrite Z.land_ones in * by lia.
    assert (0 < 2 ^ m) by (apply Z.pow_pos_nonneg; lia).
    pose proof (Z.mod_pos_bound w (2 ^ m)). lia.
  - eapply IH; eauto.
Qed.

Lemma reject_no_error : forall fuel r mask n,
  (exists v r', rejectLoop fuel r mask n = Ok (v, r')) \/ rejectLoop fuel r mask n = OutOfFuel.
Proof.
  induction fuel as [|fuel IH]; cbn [rejectLoop]; intros; auto.
  destruct (randuint64 r). destruct (_ <? n); eauto.
Qed.

Lemma reject_zero : forall fuel r m, 0 <= m -> rejectLoop fuel r (Z.ones m) 0 = OutOfFuel.
Proof.
  intros fuel r m Hm. destruct (reject_no_error fuel r (Z.ones m) 0) as [(v & r' & E)|E]; auto.
  apply reject_sound in E; auto. lia.
Qed.

Lemma reject_hit : forall k d p mask n,
  Z.land (fst (randuint64 (mkRng d (p + 2 * k)))) mask < n ->
  exists fuel v r', rejectLoop fuel (mkRng d p) mask n = Ok (v, r').
Proof.
  induction k as [|k IH]; intros d p mask n H.
  - replace (p + 2 * 0)%nat with p in H by lia. exists 1%nat. cbn [rejectLoop].
    destruct (randuint64 (mkRng d p)) as [w r1]. cbn [fst] in H.
    replace (Z.land w mask <? n) with true by lia. eauto.
  - destruct (IH d (S (S p)) mask n) as (fuel & v & r' & E).
    { replace (S (S p) + 2 * k)%nat with (p + 2 * S k)%nat by lia. exact H. }
    exists (S fuel). cbn [rejectLoop].
    destruct (randuint64 (mkRng d p)) as [w r1] eqn:R.
    destruct (Z.land w mask <? n); eauto.
    assert (r1 = mkRng d (S (S p))) by (change r1 with (snd (w, r1)); rewrite <- R; reflexivity).
    subst. eauto.
Qed.

(* ---------- steps ---------- *)

Lemma card_nonneg : forall is, Forall valid is -> 0 <= card is.
Proof. induction 1 as [|i is V _ IH]; simpl; [lia|]. unfold valid in V. lia. Qed.

Lemma size_eq : forall i, valid i -> hi i - lo i + 1 < two64 -> Size i = hi i - lo i + 1.
Proof. intros i V H. unfold Size, u64, valid in *. unfold two64 in *. lia. Qed.

Lemma steps_spec : forall is c, Forall valid is -> 0 <= c -> c + card is < two64 ->
  exists st, buildSteps c is = (st, c + card is) /\
    (forall r, c <= r < c + card is -> exists x, pickStep r st = Ok x /\ covers is x) /\
    (forall x, covers is x -> exists r, c <= r < c + card is /\ pickStep r st = Ok x).
Proof.
  induction is as [|i is IH]; intros c V Hc Hs; cbn [buildSteps card] in *.
  - exists []. repeat split; [f_equal; lia|intros; lia|intros x F; now apply covers_nil in F].
  - pose proof (Forall_inv V) as Vi. pose proof (Forall_inv_tail V) as V'.
    pose proof (card_nonneg is V'). unfold valid in Vi.
    assert (Sz : Size i = hi i - lo i + 1) by (apply size_eq; auto; lia).
    rewrite Sz. replace (u64 (c + (hi i - lo i + 1))) with (c + (hi i - lo i + 1))
      by (unfold u64; symmetry; apply Z.mod_small; lia).
    destruct (IH (c + (hi i - lo i + 1)) V') as (st & B & P & Q); try lia.
    rewrite B. set (c' := c + (hi i - lo i + 1)) in *.
    eexists; split; [f_equal; lia|]. split.
    + intros r Hr. cbn [pickStep]. destruct (r <? c') eqn:E.
      * eexists; split; [reflexivity|]. apply covers_cons. left.
        unfold u64, two64 in *. lia.
      * destruct (P r) as (x & X1 & X2); [lia|]. exists x. split; auto. apply covers_cons; auto.
    + intros x Hx. destruct (Z_le_dec (lo i) x) as [L|L]; [destruct (Z_le_dec x (hi i)) as [U|U]|].
      1: { exists (c + (x - lo i)). split; [lia|]. cbn [pickStep].
           replace (c + (x - lo i) <? c') with true by lia. f_equal. unfold u64, two64 in *. lia. }
      all: apply covers_cons in Hx; destruct Hx as [?|Hx]; [lia|];
           destruct (Q x Hx) as (r & R1 & R2); exists r; split; [lia|]; cbn [pickStep];
           replace (r <? c') with false by lia; auto.
Qed.

Lemma card_bound : forall is b, ordered_from b is -> Forall valid is -> -1 <= b < two64 ->
  card is <= max64 - b /\
  (forall y, b < y < two64 -> ~ covers is y -> card is < max64 - b) /\
  ((forall y, b < y < two64 -> covers is y) -> card is = max64 - b).
Proof.
  induction is as [|i is IH]; intros b HO HV Hb; cbn [card].
  - unfold max64, two64 in *. repeat split; try lia.
    intros H. destruct (Z_lt_ge_dec b 18446744073709551615).
    + exfalso. eapply covers_nil. apply (H (b + 1)). lia.
    + lia.
  - destruct HO as (A & B & C). pose proof (Forall_inv HV) as Vi.
    pose proof (Forall_inv_tail HV) as HV'. unfold valid in Vi.
    destruct (IH (hi i) C HV') as (D & E & F); [lia|].
    split; [|split].
    + unfold max64, two64 in *; lia.
    + intros y Hy N. destruct (Z_le_dec y (hi i)).
      * assert (y < lo i) by (destruct (Z_lt_ge_dec y (lo i)); auto; exfalso; apply N; apply covers_cons; left; lia).
        unfold max64, two64 in *; lia.
      * assert (card is < max64 - hi i) by (apply (E y); [lia|]; intros G; apply N; apply covers_cons; auto).
        unfold max64, two64 in *; lia.
    + intros H. assert (lo i = b + 1).
      { destruct (Z.eq_dec (lo i) (b + 1)); auto. exfalso.
        specialize (H (b + 1)). rewrite covers_cons in H. destruct H as [?|H]; [lia|lia|].
        apply count_covers in H. destruct (ordered_count_le1 _ _ C (b + 1)). lia. }
      assert (card is = max64 - hi i).
      { apply F. intros y Hy. specialize (H y). rewrite covers_cons in H.
        destruct H as [?|H]; auto; lia. }
      lia.
Qed.

Lemma wf_card : forall s y, wf_set s -> is_u64 y -> Contains s y = false -> card (intervals s) < two64.
Proof.
  intros s y [V O] Hy N. destruct (card_bound (intervals s) (-1)) as (_ & E & _); auto.
  { unfold two64; lia. }
  unfold is_u64 in Hy. specialize (E y). unfold max64, two64 in *.
  assert (card (intervals s) < 18446744073709551615 - -1); [|lia].
  apply E; [lia|]. intros C. apply contains_covers in C. congruence.
Qed.

Lemma wf_full : forall s, wf_set s -> (forall y, is_u64 y -> Contains s y = true) -> card (intervals s) = two64.
Proof.
  intros s [V O] H. destruct (card_bound (intervals s) (-1)) as (_ & _ & F); auto.
  { unfold two64; lia. }
  unfold max64, two64, is_u64 in *. rewrite F; [lia|]. intros y Hy. apply contains_covers, H. unfold two64. lia.
Qed.

Lemma steps_total : forall is c, Forall valid is -> snd (buildSteps c is) = u64 (snd (buildSteps c is)) \/ is = [].
Proof.
  intros [|i is] c V; [right; auto|left].
  cbn [buildSteps]. revert i c V. induction is as [|j is IH]; intros i c V.
  - cbn. unfold u64. rewrite Z.mod_mod; auto. unfold two64; lia.
  - pose proof (Forall_inv_tail V) as V'.
    specialize (IH j (u64 (c + Size i)) V'). cbn [buildSteps].
    destruct (buildSteps (u64 (u64 (c + Size i) + Size j)) is). cbn [snd] in *. exact IH.
Qed.

Lemma steps_mod : forall is c, Forall valid is -> u64 (snd (buildSteps c is)) = u64 (c + card is).
Proof.
  induction is as [|i is IH]; intros c V; cbn [buildSteps card].
  - cbn [snd]. f_equal. lia.
  - pose proof (Forall_inv V) as Vi. pose proof (Forall_inv_tail V) as V'.
    specialize (IH (u64 (c + Size i)) V').
    destruct (buildSteps (u64 (c + Size i)) is) as [st t]. cbn [snd] in *. rewrite IH.
    unfold Size, u64. rewrite Z.add_mod_idemp_l by (unfold two64; lia).
    rewrite (Z.add_mod c), Z.add_mod_idemp_l by (unfold two64; lia).
    unfold valid, two64 in *. lia.
Qed.

Section RandomTheorems.
Variable s : iset.
Hypothesis WF : wf_set s.
Hypothesis NE : intervals s <> [].

Lemma random_unfold : forall fuel rnd,
  RandomWithGenerator fuel s rnd =
  let '(steps, cuml) := buildSteps 0 (intervals s) in
      ('(r, rnd') <- randuint64n fuel rnd cuml ;;
       x <- pickStep r steps ;;
       Ok (x, rnd')).
Proof.
  intros. unfold RandomWithGenerator. destruct (intervals s); [contradiction|reflexivity].
Qed.

Theorem random_sound : forall y, is_u64 y -> Contains s y = false ->
  forall fuel rnd,
  RandomWithGenerator fuel s rnd = OutOfFuel \/
  exists x rnd', RandomWithGenerator fuel s rnd = Ok (x, rnd') /\ Contains s x = true.
Proof.
  intros y Hy Ny fuel rnd. rewrite random_unfold.
  pose proof (wf_card s y WF Hy Ny) as HC. destruct WF as [V O].
  destruct (steps_spec (intervals s) 0) as (st & B & P & _); auto; try lia.
  rewrite B. unfold randuint64n.
  pose proof (card_nonneg _ V). destruct (randMask_spec (0 + card (intervals s))) as (m & M1 & M2 & M3 & M4); [lia|].
  rewrite M2. destruct (reject_no_error fuel rnd (Z.ones m) (0 + card (intervals s))) as [(v & r' & E)|E]; rewrite E; cbn [bind]; auto.
  right. apply reject_sound in E; [|lia]. destruct (P v) as (x & X1 & X2); [lia|].
  rewrite X1. cbn [bind]. exists x, r'. split; auto. now apply contains_covers.
Qed.

Theorem random_reach : forall y, is_u64 y -> Contains s y = false ->
  forall x, Contains s x = true ->
  exists rnd rnd', RandomWithGenerator 1 s rnd = Ok (x, rnd').
Proof.
  intros y Hy Ny x Hx. pose proof (wf_card s y WF Hy Ny) as HC. destruct WF as [V O].
  destruct (steps_spec (intervals s) 0) as (st & B & _ & Q); auto; try lia.
  apply contains_covers in Hx. destruct (Q x Hx) as (r & R1 & R2).
  exists (mkRng (word_src r) 0). rewrite random_unfold, B. unfold randuint64n.
  pose proof (card_nonneg _ V). destruct (randMask_spec (0 + card (intervals s))) as (m & M1 & M2 & M3 & M4); [lia|].
  rewrite M2. cbn [rejectLoop]. rewrite (randuint64_word r) by (auto; unfold is_u64; lia).
  rewrite Z.land_ones by lia. rewrite Z.mod_small by lia.
  replace (r <? 0 + card (intervals s)) with true by lia. cbn [bind]. rewrite R2. cbn [bind]. eauto.
Qed.

(** A source in which every 64-bit word shows up sooner or later. *)
Definition all_words (rnd : rng) : Prop :=
  forall w, is_u64 w -> exists k, fst (randuint64 (mkRng (draws rnd) (rpos rnd + 2 * k))) = w.

Theorem random_terminates : forall y, is_u64 y -> Contains s y = false ->
  forall rnd, all_words rnd ->
  exists fuel x rnd', RandomWithGenerator fuel s rnd = Ok (x, rnd').
Proof.
  intros y Hy Ny rnd HW. pose proof (wf_card s y WF Hy Ny) as HC. pose proof WF as [V O].
  pose proof (card_nonneg _ V).
  assert (Cp : 0 < card (intervals s)).
  { destruct (intervals s) as [|i l] eqn:E; [contradiction|]. cbn [card].
    pose proof (Forall_inv V) as Vi. pose proof (card_nonneg _ (Forall_inv_tail V)). unfold valid in Vi. lia. }
  destruct (randMask_spec (0 + card (intervals s))) as (m & M1 & M2 & M3 & M4); [lia|].
  destruct (HW 0) as (k & Hk); [unfold is_u64, two64; lia|].
  destruct rnd as [d p]. cbn [draws rpos] in Hk.
  destruct (reject_hit k d p (Z.ones m) (0 + card (intervals s))) as (fuel & v & r' & E).
  { rewrite Hk. rewrite Z.land_0_l. lia. }
  exists fuel. destruct (random_sound y Hy Ny fuel (mkRng d p)) as [F|(x & r2 & F & _)]; eauto.
  exfalso. rewrite random_unfold in F.
  destruct (steps_spec (intervals s) 0) as (st & B & P & _); auto; try lia.
  rewrite B in F. unfold randuint64n in F. rewrite M2, E in F. cbn [bind] in F.
  apply reject_sound in E; [|lia]. destruct (P v) as (x & X1 & X2); [lia|]. rewrite X1 in F. discriminate.
Qed.

Theorem random_full_hangs : (forall y, is_u64 y -> Contains s y = true) ->
  forall fuel rnd, RandomWithGenerator fuel s rnd = OutOfFuel.
Proof.
  intros H fuel rnd. pose proof (wf_full s WF H) as HC. destruct WF as [V O].
  rewrite random_unfold. destruct (buildSteps 0 (intervals s)) as [st t] eqn:B.
  assert (t = 0).
  { pose proof (steps_mod (intervals s) 0 V) as M. rewrite B in M. cbn [snd] in M.
    destruct (steps_total (intervals s) 0 V) as [T|T]; [|contradiction].
    rewrite B in T. cbn [snd] in T. rewrite T, M, HC. reflexivity. }
  subst t. unfold randuint64n. destruct (randMask_spec 0) as (m & M1 & M2 & _); [unfold two64; lia|].
  rewrite M2, reject_zero by lia. reflexivity.
Qed.
End RandomTheorems.

Lemma random_u64_hangs : exists s, wf_set s /\ intervals s <> [] /\
  IntTypeSet 64 = Ok s /\ forall fuel rnd, RandomWithGenerator fuel s rnd = OutOfFuel.
Proof.
  destruct (inttype_correct 64) as (s & E & W & C); [lia|].
  assert (N : intervals s <> []).
  { intros N. assert (H : Contains s 0 = true) by (apply C; lia).
    unfold Contains in H. rewrite N in H. discriminate. }
  exists s. split; [exact W|]. split; [exact N|]. split; [exact E|].
  intros. apply random_full_hangs; auto.
  intros y Hy. apply C. exact Hy.
Qed.
