(** When [Simplify] is minimal: touching intervals that no input interval joins
    are the only thing it leaves apart. *)
From Coq Require Import ZArith List Bool Permutation Lia ZifyBool ZifyNat.
From Verif Require Import Base IntervalsModel IntervalsSpec IntervalsProofs.
Import ListNotations.
Open Scope Z_scope.

(** One interval of the list has both [x] and [x+1]. *)
Definition joins (is : list interval) (x : Z) : Prop := exists i, In i is /\ lo i <= x /\ x + 1 <= hi i.

Lemma joins_cons : forall i is x, joins (i :: is) x <-> (lo i <= x < hi i \/ joins is x).
Proof.
  unfold joins; intros; split.
  - intros (j & [->|H] & B); [left; lia|right; eauto].
  - intros [B|(j & H & B)]; [exists i|exists j]; simpl; split; auto; lia.
Qed.

(** The number of edges up to and including [x]. *)
Definition contribH (x : Z) (e : edge) : Z := if ex e <=? x then ed e else 0.
Fixpoint sumh (x : Z) (es : list edge) : Z :=
  match es with [] => 0 | e :: es' => contribH x e + sumh x es' end.
Lemma sumh_none : forall x e es, Forall (ele e) es -> x < ex e -> sumh x es = 0.
Proof.
  induction es as [|a es IH]; simpl; auto. intros Hl Hb. inversion Hl; subst. rewrite IH; auto.
  unfold contribH. unfold ele in *. replace (ex a <=? x) with false by lia. auto.
Qed.
Lemma sumh_perm : forall x l l', Permutation l l' -> sumh x l = sumh x l'.
Proof. induction 1; simpl; lia. Qed.

Lemma sweep_joins : forall thresh es n inside start R,
  1 <= thresh -> Forall eok es -> esorted es -> n + sumd es = 0 ->
  inside = (thresh <=? n) -> (inside = true -> Forall (fun e => start <= ex e) es) ->
  sweep thresh es n inside start = Ok R ->
  forall x, joins R x <-> (inside = true -> start <= x) /\ thresh <= n + sumh x es.
Proof.
  intros thresh es. induction es as [|e es IH]; intros n inside start R Ht Hk Hs Hsum Hin Hst HR.
  - simpl in *. injection HR as <-. intros x. split; [intros (i & [] & _)|]. intros [_ H]. lia.
  - inversion Hk as [|? ? He Hk']; subst. inversion Hs as [|? ? Hle Hs']; subst.
    cbn [sumd] in Hsum. cbn [sweep] in HR.
    assert (Hsplit : forall x, (ex e <= x /\ n + sumh x (e :: es) = (n + ed e) + sumh x es) \/
                      (x < ex e /\ n + sumh x (e :: es) = n /\ sumh x es = 0)).
    { intros x. cbn [sumh]. unfold contribH. destruct (ex e <=? x) eqn:B.
      - left; split; lia.
      - right. assert (sumh x es = 0) by (eapply sumh_none; eauto; lia). repeat split; auto; lia. }
    assert (Hbnd : Forall (fun e' => ex e <= ex e') es).
    { eapply Forall_impl; [|exact Hle]. intros a Ha. unfold ele in Ha. lia. }
    destruct (thresh <=? n) eqn:En; cbn [negb andb] in HR.
    + destruct (n + ed e <? thresh) eqn:E2.
      * assert (Hd : ed e = -1) by (destruct He; lia).
        specialize (Hst eq_refl). inversion Hst as [|? ? Hse _]; subst.
        unfold Range in HR. replace (ex e <? start) with false in HR by lia. cbn [bind] in HR.
        destruct (sweep thresh es (n + ed e) false start) as [R'| | |] eqn:E3; try discriminate.
        cbn [bind] in HR. injection HR as <-.
        pose proof (IH (n + ed e) false start R' Ht Hk' Hs' ltac:(lia) ltac:(lia) ltac:(discriminate) E3) as HC.
        intros x. rewrite joins_cons, HC. cbn [lo hi].
        destruct (Hsplit x) as [(B & D)|(B & D & Z0)]; rewrite D; rewrite ?Z0; split; intros; intuition (try lia; try discriminate).
      * pose proof (IH (n + ed e) true start R Ht Hk' Hs' ltac:(lia) ltac:(lia) (fun _ => Forall_inv_tail (Hst eq_refl)) HR) as HC.
        intros x. rewrite HC. destruct (Hsplit x) as [(B & D)|(B & D & Z0)]; rewrite D; [reflexivity|].
        rewrite Z0. intuition lia.
    + destruct (thresh <=? n + ed e) eqn:E2.
      * assert (Hd : ed e = 1) by (destruct He; lia).
        pose proof (IH (n + ed e) true (ex e) R Ht Hk' Hs' ltac:(lia) ltac:(lia) (fun _ => Hbnd) HR) as HC.
        intros x. rewrite HC. destruct (Hsplit x) as [(B & D)|(B & D & Z0)]; rewrite D;
          rewrite ?Z0; split; intros; intuition (try lia; try discriminate).
      * pose proof (IH (n + ed e) false start R Ht Hk' Hs' ltac:(lia) ltac:(lia) ltac:(discriminate) HR) as HC.
        intros x. rewrite HC. destruct (Hsplit x) as [(B & D)|(B & D & Z0)]; rewrite D; [reflexivity|].
        rewrite Z0. intuition (try lia; try discriminate).
Qed.

Lemma edges_joins : forall x is, Forall valid is -> 0 <= sumh x (intervaledges is) /\ (1 <= sumh x (intervaledges is) <-> joins is x).
Proof.
  induction 1 as [|i is V _ IH].
  - simpl. split; [lia|]. split; [lia|intros (i & [] & _)].
  - change (intervaledges (i :: is)) with (mkE (lo i) 1 :: mkE (hi i) (-1) :: intervaledges is).
    cbn [sumh]. unfold contribH. cbn [ex ed]. rewrite joins_cons. destruct IH as [A B], V as (? & ? & ?).
    destruct (lo i <=? x) eqn:E1, (hi i <=? x) eqn:E2; try lia;
      (split; [lia|]); split; intros H'; (try (left; lia)); try lia;
      (try (right; apply B; lia)); destruct H' as [H'|H']; try lia; apply B in H'; lia.
Qed.

Lemma simplify_joins : forall is R, Forall valid is -> Simplify is = Ok R -> forall x, joins R x <-> joins is x.
Proof.
  intros is R V HR x. unfold Simplify, thresholds in HR. cbn [flat_map] in HR. rewrite app_nil_r in HR.
  set (es := intervaledges is) in *. assert (P := sort_perm es).
  rewrite (sweep_joins 1 (sortEdges es) 0 false 0 R) with (x := x); auto; try lia; try discriminate.
  - rewrite (sumh_perm _ _ _ P). destruct (edges_joins x is V) as [_ B]. fold es in B. rewrite <- B. intuition (try lia; try discriminate).
  - rewrite P. apply edges_ok.
  - apply sort_sorted.
  - rewrite (sumd_perm _ _ P). apply edges_sumd.
Qed.

Lemma ordered_in : forall R b i, ordered_from b R -> In i R -> b < lo i /\ lo i <= hi i.
Proof.
  induction R as [|a R IH]; intros b i H I; [destruct I|]. destruct I as [->|I]; cbn in H; [lia|]. destruct H as (A & B & C). destruct (IH _ _ C I). lia.
Qed.
(** In an ordered list, an interval with [hi i] in it is [i]. *)
Lemma ordered_joins : forall R b i, ordered_from b R -> In i R -> ~ joins R (hi i).
Proof.
  induction R as [|a R IH]; intros b i H I J; [destruct I|]. cbn in H. destruct H as (A & B & C).
  apply joins_cons in J. destruct I as [->|I].
  - destruct J as [J|(k & K & L)]; [lia|]. destruct (ordered_in _ _ _ C K). lia.
  - destruct J as [J|J]; [|now apply (IH _ _ C I)]. destruct (ordered_in _ _ _ C I). lia.
Qed.

Lemma cover_length : forall R b R', ordered_from b R -> (forall x, covers R x -> covers R' x) ->
  (forall i, In i R -> ~ covers R' (hi i + 1)) -> (length R <= length R')%nat.
Proof.
  induction R as [|i R IH]; intros b R' O C G; [cbn; lia|]. cbn in O. destruct O as (A & B & O).
  pose (q := fun j => hi j <=? hi i).
  assert (L : length R' = (length (filter q R') + length (filter (fun j => negb (q j)) R'))%nat).
  { clear. induction R' as [|j R' IH]; cbn; auto. destruct (q j); cbn; lia. }
  assert (L1 : (1 <= length (filter q R'))%nat).
  { destruct (C (lo i)) as (j & J & K); [exists i; split; [now left|lia]|].
    assert (I : In j (filter q R')).
    { apply filter_In. split; auto. unfold q. destruct (hi j <=? hi i) eqn:E; auto. exfalso. apply (G i (or_introl eq_refl)).
      exists j. split; auto. lia. }
    destruct (filter q R'); [destruct I|cbn; lia]. }
  assert (L2 : (length R <= length (filter (fun j => negb (q j)) R'))%nat).
  { apply (IH (hi i)); auto.
    - intros x (k & K & X). destruct (ordered_in _ _ _ O K). destruct (C x) as (j & J & Y); [exists k; split; [now right|auto]|].
      exists j. split; auto. apply filter_In. split; auto. unfold q. destruct (hi j <=? hi i) eqn:E; auto. lia.
    - intros k K (j & J & Y). apply filter_In in J as [J _]. apply (G k (or_intror K)). exists j. auto. }
  cbn. lia.
Qed.

Theorem simplify_minimal : forall is R, Forall valid is -> Simplify is = Ok R ->
  (forall x, covers is x -> covers is (x + 1) -> exists i, In i is /\ lo i <= x /\ x + 1 <= hi i) ->
  forall R', (forall x, covers R' x <-> covers is x) -> (length R <= length R')%nat.
Proof.
  intros is R V HR G R' E. destruct (simplify_correct is V) as (R0 & HR0 & HC & HV & HO).
  rewrite HR in HR0. injection HR0 as <-. apply (cover_length R (-1)); auto.
  - intros x X. apply E, HC, X.
  - intros i I Y. apply E in Y. destruct (ordered_in _ _ _ HO I).
    assert (X : covers is (hi i)) by (apply HC; exists i; split; [auto|lia]).
    apply (ordered_joins _ _ _ HO I). apply (simplify_joins _ _ V HR). exact (G _ X Y).
Qed.
