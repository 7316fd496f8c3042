(** Random elements are equally likely: sources may be rearranged so that two
    elements change places. *)
From Coq Require Import ZArith String List Bool Lia ZifyBool ZifyNat.
From Verif Require Import Base IntervalsModel IntervalsSpec IntervalsProofs RandomProofs.
Import ListNotations.
Open Scope Z_scope.

(** * Specification *)

(** A pair of results of [Int63]. *)
Definition drawPair (p : Z * Z) : Prop := 0 <= fst p < two63 /\ 0 <= snd p < two63.
(** The pairs that a source produces from now on. *)
Definition pairAt (r : rng) (i : nat) : Z * Z :=
  (draws r (rpos r + 2 * i) mod two63, draws r (rpos r + 2 * i + 1) mod two63).
(** A permutation of the pairs that is its own inverse.  If all pairs are equally
    likely and independent, then so are they after a permutation. *)
Definition swapping (sg : Z * Z -> Z * Z) : Prop :=
  (forall p, drawPair p -> drawPair (sg p)) /\ forall p, drawPair p -> sg (sg p) = p.
(** [r'] is the source that produces what [r] does, every pair replaced. *)
Definition rearranged (sg : Z * Z -> Z * Z) (r r' : rng) : Prop :=
  rpos r' = rpos r /\ forall i, pairAt r' i = sg (pairAt r i).
(** The call returns [x] after the source has reached position [k]. *)
Definition drawn (s : iset) (fuel : nat) (r : rng) (x : Z) (k : nat) : Prop :=
  exists r', RandomWithGenerator fuel s r = Ok (x, r') /\ rpos r' = k.

(** * Words *)

Definition wordOf (p : Z * Z) : Z := fst p / 2147483648 + (snd p mod 4294967296) * 4294967296.

Lemma pair_valid : forall r i, drawPair (pairAt r i).
Proof. intros r i. unfold drawPair, pairAt, two63. cbn [fst snd]. split; apply Z.mod_pos_bound; lia. Qed.

Lemma word_range : forall p, drawPair p -> 0 <= wordOf p < two64.
Proof.
  intros [a b] [A B]. unfold wordOf, two63, two64 in *. cbn [fst snd] in *.
  pose proof (Z.mod_pos_bound b 4294967296 ltac:(lia)).
  assert (0 <= a / 2147483648 < 4294967296) by (split; [apply Z.div_pos; lia|apply Z.div_lt_upper_bound; lia]). lia.
Qed.

Lemma randuint64_pair : forall r, randuint64 r = (wordOf (pairAt r 0), mkRng (draws r) (S (S (rpos r)))).
Proof.
  intros r. unfold randuint64, Int63, wordOf, pairAt. cbn [fst snd draws rpos].
  replace (rpos r + 2 * 0)%nat with (rpos r) by lia. replace (rpos r + 1)%nat with (S (rpos r)) by lia.
  set (a := draws r (rpos r)). set (b := draws r (S (rpos r))). f_equal.
  rewrite Z.shiftr_div_pow2, Z.shiftl_mul_pow2 by lia. change (2 ^ 31) with 2147483648. change (2 ^ 32) with 4294967296.
  set (b' := b mod two63).
  assert (E : u64 (b' * 4294967296) = (b' mod 4294967296) * 4294967296).
  { unfold u64. change two64 with (4294967296 * 4294967296). rewrite Z.mul_mod_distr_r by lia. reflexivity. }
  rewrite E. change 4294967296 with (2 ^ 32) at 2 4. apply lor_shift_add; [lia|].
  pose proof (Z.mod_pos_bound a two63 ltac:(unfold two63; lia)). unfold two63 in *. change (2 ^ 32) with 4294967296.
  split; [apply Z.div_pos; lia|apply Z.div_lt_upper_bound; lia].
Qed.

(** A permutation of words gives one of pairs. *)
Definition onPairs (pi : Z -> Z) (p : Z * Z) : Z * Z :=
  let w := pi (wordOf p) in
  ((w mod 4294967296) * 2147483648 + fst p mod 2147483648, snd p / 4294967296 * 4294967296 + w / 4294967296).

Section OnPairs.
Variable pi : Z -> Z.
Hypothesis RG : forall w, 0 <= w < two64 -> 0 <= pi w < two64.
Hypothesis IV : forall w, 0 <= w < two64 -> pi (pi w) = w.

Lemma onPairs_word : forall p, drawPair p -> drawPair (onPairs pi p) /\ wordOf (onPairs pi p) = pi (wordOf p).
Proof.
  intros [a b] D. pose proof (RG _ (word_range _ D)) as W. destruct D as [A B]. unfold onPairs. set (w := pi (wordOf (a, b))) in *. clearbody w.
  unfold drawPair, wordOf, two63, two64 in *. cbn [fst snd] in *.
  pose proof (Z.mod_pos_bound w 4294967296 ltac:(lia)). pose proof (Z.mod_pos_bound a 2147483648 ltac:(lia)).
  assert (0 <= w / 4294967296 < 4294967296) by (split; [apply Z.div_pos; lia|apply Z.div_lt_upper_bound; lia]).
  assert (0 <= b / 4294967296 < 2147483648) by (split; [apply Z.div_pos; lia|apply Z.div_lt_upper_bound; lia]).
  split; [lia|].
  rewrite Z.div_add_l by lia. rewrite (Z.div_small (a mod _)) by lia.
  rewrite (Z.add_comm (b / 4294967296 * 4294967296)), Z.mod_add by lia. rewrite (Z.mod_small (w / _)) by lia.
  pose proof (Z.div_mod w 4294967296 ltac:(lia)). lia.
Qed.
Lemma onPairs_swapping : swapping (onPairs pi).
Proof.
  split; [intros p D; now apply onPairs_word|]. intros p D. destruct (onPairs_word p D) as (D' & E).
  unfold onPairs at 1. rewrite E, IV by now apply word_range. pose proof (RG _ (word_range _ D)) as W. clear E D'. destruct p as [a b]. unfold onPairs. set (w := pi (wordOf (a, b))) in *. 
  destruct D as [A B]. unfold wordOf, two63 in *. cbn [fst snd] in *.
  clearbody w. unfold two64 in *.
  pose proof (Z.mod_pos_bound b 4294967296 ltac:(lia)). pose proof (Z.mod_pos_bound a 2147483648 ltac:(lia)).
  assert (0 <= a / 2147483648 < 4294967296) by (split; [apply Z.div_pos; lia|apply Z.div_lt_upper_bound; lia]).
  assert (0 <= w / 4294967296 < 4294967296) by (split; [apply Z.div_pos; lia|apply Z.div_lt_upper_bound; lia]).
  rewrite Z.mod_add, (Z.mod_small (a / _)) by lia. rewrite Z.div_add, (Z.div_small (a / _)) by lia.
  rewrite (Z.add_comm _ (a mod 2147483648)), Z.mod_add by lia. rewrite Z.mod_mod by lia.
  rewrite Z.div_add_l, (Z.div_small (w / _)) by lia.
  f_equal.
  - pose proof (Z.div_mod a 2147483648 ltac:(lia)). lia.
  - pose proof (Z.div_mod b 4294967296 ltac:(lia)). lia.
Qed.
End OnPairs.

(** Every source has a rearrangement. *)
Lemma rearranged_exists : forall sg, (forall p, drawPair p -> drawPair (sg p)) -> forall r, exists r', rearranged sg r r'.
Proof.
  intros sg V r.
  exists (mkRng (fun k => let j := (k - rpos r)%nat in
    let p := sg (pairAt r (Nat.div2 j)) in if Nat.even j then fst p else snd p) (rpos r)).
  split; [reflexivity|]. intros i. unfold pairAt at 1. cbn [draws rpos].
  replace (rpos r + 2 * i - rpos r)%nat with (2 * i)%nat by lia. replace (rpos r + 2 * i + 1 - rpos r)%nat with (S (2 * i)) by lia.
  rewrite Nat.div2_double, Nat.div2_succ_double, Nat.even_succ, <- Nat.negb_even, Nat.even_mul. cbn [Nat.even orb negb].
  destruct (V _ (pair_valid r i)) as [A B]. destruct (sg (pairAt r i)) as [a b]. cbn [fst snd] in *. now rewrite !Z.mod_small.
Qed.

Lemma rearranged_next : forall sg r r', rearranged sg r r' -> rearranged sg (mkRng (draws r) (S (S (rpos r)))) (mkRng (draws r') (S (S (rpos r')))).
Proof.
  intros sg r r' [P H]. split; [cbn; congruence|]. intros i. specialize (H (S i)). unfold pairAt in *. cbn [draws rpos].
  replace (S (S (rpos r)) + 2 * i)%nat with (rpos r + 2 * S i)%nat by lia.
  replace (S (S (rpos r')) + 2 * i)%nat with (rpos r' + 2 * S i)%nat by lia. exact H.
Qed.

(** * Swapping two remainders *)
Section Swap.
Variables i j : Z.

Definition tau (t : Z) : Z := if t =? i then j else if t =? j then i else t.
Lemma tau_tau : forall t, tau (tau t) = t.
Proof. intros t. unfold tau. destruct (t =? i) eqn:A; [destruct (j =? i) eqn:B; [lia|rewrite Z.eqb_refl; lia]|].
  destruct (t =? j) eqn:B; [rewrite Z.eqb_refl; lia|]. rewrite A, B. reflexivity. Qed.
Lemma tau_i : forall t, t = i <-> tau t = j.
Proof. intros t. unfold tau. destruct (t =? i) eqn:A; [lia|]. destruct (t =? j) eqn:B; lia. Qed.

Variable m : Z.
Hypothesis M : 0 < m <= 64.
Variable n : Z.
Hypothesis I : 0 <= i < n.
Hypothesis J : 0 <= j < n.
Hypothesis N : n < 2 ^ m.

Definition swapWord (w : Z) : Z := w / 2 ^ m * 2 ^ m + tau (w mod 2 ^ m).

Lemma tau_range : forall t, 0 <= t < 2 ^ m -> 0 <= tau t < 2 ^ m.
Proof. intros t T. unfold tau. destruct (t =? i), (t =? j); lia. Qed.
Lemma tau_small : forall t, 0 <= t -> (tau t <? n) = (t <? n).
Proof. intros t T. unfold tau. destruct (t =? i) eqn:A; [lia|]. destruct (t =? j) eqn:B; lia. Qed.

Lemma swap_mod : forall w, swapWord w mod 2 ^ m = tau (w mod 2 ^ m) /\ swapWord w / 2 ^ m = w / 2 ^ m.
Proof.
  intros w. pose proof (Z.pow_pos_nonneg 2 m ltac:(lia) ltac:(lia)). pose proof (Z.mod_pos_bound w (2 ^ m) ltac:(lia)) as R.
  apply tau_range in R. unfold swapWord. split.
  - rewrite Z.add_comm, Z.mod_add, Z.mod_small by lia. reflexivity.
  - rewrite Z.div_add_l, (Z.div_small (tau _)) by lia. lia.
Qed.
Lemma swap_range : forall w, 0 <= w < two64 -> 0 <= swapWord w < two64.
Proof.
  intros w W. pose proof (Z.pow_pos_nonneg 2 m ltac:(lia) ltac:(lia)) as P.
  assert (E : two64 = 2 ^ (64 - m) * 2 ^ m) by (rewrite <- Z.pow_add_r by lia; now replace (64 - m + m) with 64 by lia).
  destruct (swap_mod w) as (A & B). pose proof (Z.div_mod (swapWord w) (2 ^ m) ltac:(lia)) as D. rewrite A, B in D.
  pose proof (tau_range _ (Z.mod_pos_bound w (2 ^ m) P)).
  assert (0 <= w / 2 ^ m < 2 ^ (64 - m)).
  { split; [apply Z.div_pos; lia|]. apply Z.div_lt_upper_bound; [lia|]. rewrite Z.mul_comm, <- E. lia. }
  rewrite E. nia.
Qed.
Lemma swap_swap : forall w, swapWord (swapWord w) = w.
Proof.
  intros w. destruct (swap_mod w) as (A & B). unfold swapWord at 1. rewrite A, B, tau_tau. pose proof (Z.pow_pos_nonneg 2 m ltac:(lia) ltac:(lia)).
  pose proof (Z.div_mod w (2 ^ m) ltac:(lia)). lia.
Qed.

Lemma reject_swap : forall fuel r r', rearranged (onPairs swapWord) r r' ->
  (rejectLoop fuel r (Z.ones m) n = OutOfFuel /\ rejectLoop fuel r' (Z.ones m) n = OutOfFuel) \/
  exists v r1 r1', rejectLoop fuel r (Z.ones m) n = Ok (v, r1) /\ rejectLoop fuel r' (Z.ones m) n = Ok (tau v, r1') /\ rpos r1' = rpos r1.
Proof.
  induction fuel as [|fuel IH]; intros r r' R; [left; split; reflexivity|]. cbn [rejectLoop]. rewrite !randuint64_pair.
  destruct R as [P H]. pose proof (pair_valid r 0) as D. destruct (onPairs_word swapWord swap_range (fun w _ => swap_swap w) _ D) as (_ & E).
  rewrite (H 0%nat), E. rewrite !Z.land_ones by lia. destruct (swap_mod (wordOf (pairAt r 0))) as (A & _). rewrite A.
  pose proof (Z.pow_pos_nonneg 2 m ltac:(lia) ltac:(lia)) as Q.
  rewrite tau_small by (apply Z.mod_pos_bound; lia). destruct (_ <? n).
  - right. eexists _, _, _. split; [reflexivity|]. split; [reflexivity|]. cbn. congruence.
  - apply IH. apply rearranged_next. split; auto.
Qed.
End Swap.

(** * Elements and their numbers *)
Lemma steps_mono : forall is b c, ordered_from b is -> Forall valid is -> 0 <= c -> c + card is < two64 ->
  forall st t, buildSteps c is = (st, t) -> forall r1 x1, c <= r1 -> pickStep r1 st = Ok x1 -> b < x1 /\
  forall r2 x2, r1 < r2 -> pickStep r2 st = Ok x2 -> x1 < x2.
Proof.
  induction is as [|i is IH]; intros b c O V Hc Hs st t B r1 x1 L P; cbn [buildSteps card ordered_from] in *.
  - injection B as <- <-. discriminate P.
  - pose proof (Forall_inv V) as Vi. pose proof (Forall_inv_tail V) as V'. pose proof (card_nonneg is V'). destruct O as (O1 & O2 & O3). unfold valid in Vi.
    assert (Sz : Size i = hi i - lo i + 1) by (apply size_eq; auto; lia).
    rewrite Sz in B. replace (u64 (c + (hi i - lo i + 1))) with (c + (hi i - lo i + 1)) in B by (unfold u64; symmetry; apply Z.mod_small; lia).
    set (c' := c + (hi i - lo i + 1)) in *. destruct (buildSteps c' is) as [st' t'] eqn:B'. injection B as <- <-.
    assert (HD : forall r, c <= r < c' -> u64 (r + u64 (u64 (hi i - c') + 1)) = lo i + (r - c)) by (intros r R; unfold u64, two64 in *; lia).
    assert (TL : forall r x, c' <= r -> pickStep r st' = Ok x -> hi i < x /\ forall r2 x2, r < r2 -> pickStep r2 st' = Ok x2 -> x < x2).
    { intros r x R E. exact (IH (hi i) c' O3 V' ltac:(lia) ltac:(lia) st' t' B' r x R E). }
    cbn [pickStep] in *. destruct (r1 <? c') eqn:E1.
    + injection P as <-. rewrite HD by lia. split; [lia|]. intros r2 x2 L2 P2. destruct (r2 <? c') eqn:E2.
      * injection P2 as <-. rewrite HD by lia. lia.
      * destruct (TL r2 x2) as (A & _); [lia|auto|lia].
    + destruct (TL r1 x1) as (A & B); [lia|auto|]. split; [lia|]. intros r2 x2 L2 P2. replace (r2 <? c') with false in P2 by lia. exact (B r2 x2 L2 P2).
Qed.

Lemma card_pos : forall is x, Forall valid is -> covers is x -> 0 < card is.
Proof.
  intros is x V C. destruct is as [|i is]; [now apply covers_nil in C|]. cbn [card]. pose proof (Forall_inv V) as Vi. pose proof (card_nonneg is (Forall_inv_tail V)). unfold valid in Vi. lia.
Qed.

Section Uniform.
Variable s : iset.
Hypothesis WF : wf_set s.
Variable out : Z.
Hypothesis OU : is_u64 out.
Hypothesis ON : Contains s out = false.

(** Any two elements are equally likely, after any number of draws. *)
Theorem uniform : forall x y, Contains s x = true -> Contains s y = true ->
  exists sg, swapping sg /\ (forall r, exists r', rearranged sg r r') /\
  forall r r', rearranged sg r r' -> forall fuel k, drawn s fuel r x k <-> drawn s fuel r' y k.
Proof.
  intros x y Cx Cy. pose proof (wf_card s out WF OU ON) as HC. pose proof WF as [V O].
  assert (NE : intervals s <> []) by (intros E; unfold Contains in Cx; rewrite E in Cx; discriminate).
  destruct (steps_spec (intervals s) 0) as (st & B & P & Q); auto; try lia.
  apply contains_covers in Cx. apply contains_covers in Cy. pose proof (card_nonneg _ V).
  destruct (Q x Cx) as (i & Hi & Pi). destruct (Q y Cy) as (j & Hj & Pj).
  destruct (randMask_spec (0 + card (intervals s))) as (m & M1 & M2 & M3 & M4); [lia|].
  set (n := 0 + card (intervals s)) in *.
  exists (onPairs (swapWord i j m)). pose proof (onPairs_swapping _ (swap_range i j m M1 n Hi Hj M3) (fun w _ => swap_swap i j m M1 n Hi Hj M3 w)) as SW.
  split; [exact SW|]. split; [apply rearranged_exists, SW|].
  assert (INJ : forall a b z, 0 <= a -> 0 <= b -> pickStep a st = Ok z -> pickStep b st = Ok z -> a = b).
  { intros a b z La Lb Pa Pb. destruct (Z.lt_trichotomy a b) as [L|[L|L]]; auto; exfalso.
    - destruct (steps_mono (intervals s) (-1) 0 O V ltac:(lia) ltac:(lia) st n B a z La Pa) as (_ & X). specialize (X b z L Pb). lia.
    - destruct (steps_mono (intervals s) (-1) 0 O V ltac:(lia) ltac:(lia) st n B b z Lb Pb) as (_ & X). specialize (X a z L Pa). lia. }
  intros r r' R fuel k. unfold drawn. rewrite !(random_unfold s NE), B. unfold randuint64n. rewrite M2.
  destruct (reject_swap i j m M1 n Hi Hj M3 fuel r r' R) as [(-> & ->)|(v & r1 & r1' & E & -> & PP)]; [cbn [bind]; split; intros (? & ? & _); discriminate|].
  pose proof (reject_sound _ _ _ _ _ _ (Z.lt_le_incl _ _ (proj1 M1)) E) as RV. rewrite E. cbn [bind].
  assert (RT : 0 <= tau i j v < n) by (unfold tau; destruct (v =? i), (v =? j); lia).
  destruct (P v) as (a & Pa & _); [lia|]. destruct (P (tau i j v)) as (b & Pb & _); [lia|]. rewrite Pa, Pb. cbn [bind]. split; intros (q & X & Y).
  - injection X as -> <-. exists r1'. split; [|congruence]. f_equal. f_equal. assert (v = i) by (eapply INJ; eauto; lia). apply (tau_i i j) in H0. congruence.
  - injection X as -> <-. exists r1. split; [|congruence]. f_equal. f_equal. assert (tau i j v = j) by (eapply INJ; eauto; lia). apply (tau_i i j) in H0. congruence.
Qed.

(** In each round at least a quarter of the words are good. *)
Theorem rounds : intervals s <> [] -> exists m, 0 < m <= 64 /\ card (intervals s) < 2 ^ m <= 4 * card (intervals s) /\
  forall fuel r, (wordOf (pairAt r 0) mod 2 ^ m < card (intervals s) -> exists x, drawn s (S fuel) r x (rpos r + 2)) /\
    (card (intervals s) <= wordOf (pairAt r 0) mod 2 ^ m -> forall x k, drawn s (S fuel) r x k <-> drawn s fuel (mkRng (draws r) (rpos r + 2)) x k).
Proof.
  intros NE. pose proof (wf_card s out WF OU ON) as HC. pose proof WF as [V O].
  destruct (steps_spec (intervals s) 0) as (st & B & P & Q); auto; try lia.
  assert (CP : 0 < card (intervals s)).
  { destruct (intervals s) as [|i is]; [congruence|]. cbn [card]. pose proof (Forall_inv V) as Vi. pose proof (card_nonneg is (Forall_inv_tail V)). unfold valid in Vi. lia. }
  destruct (randMask_spec (0 + card (intervals s))) as (m & M1 & M2 & M3 & M4); [lia|]. exists m. split; auto. split.
  { replace m with (1 + (m - 1)) at 2 by lia. rewrite Z.pow_add_r by lia. change (2 ^ 1) with 2. lia. }
  intros fuel r. unfold drawn. setoid_rewrite (random_unfold s NE). rewrite B. unfold randuint64n. rewrite M2.
  cbn [rejectLoop]. rewrite randuint64_pair, Z.land_ones by lia. pose proof (Z.mod_pos_bound (wordOf (pairAt r 0)) (2 ^ m) (Z.pow_pos_nonneg 2 m ltac:(lia) ltac:(lia))) as W.
  split; intros L.
  - replace (_ <? _) with true by lia. cbn [bind]. destruct (P (wordOf (pairAt r 0) mod 2 ^ m)) as (x & X & _); [lia|]. rewrite X. cbn [bind].
    exists x. eexists. split; [reflexivity|]. cbn. lia.
  - replace (_ <? _) with false by lia. intros x k.
    replace (rpos r + 2)%nat with (S (S (rpos r))) by lia. reflexivity.
Qed.
End Uniform.
