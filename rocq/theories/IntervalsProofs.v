From Coq Require Import ZArith String List Bool Lia Permutation Sorted.
From Coq Require Import ZifyBool.
From Verif Require Import Base IntervalsModel IntervalsSpec.
Import ListNotations.
Open Scope Z_scope.
Ltac Zify.zify_post_hook ::= Z.div_mod_to_equations.

Arguments two64 : simpl never.
Arguments two63 : simpl never.
Arguments max64 : simpl never.
Ltac c64 := unfold max64, two63, two64 in *.

(* ---------- sorting ---------- *)

Definition eok (e : edge) : Prop := ed e = 1 \/ ed e = -1.

Definition ele (a b : edge) : Prop :=
  ex a < ex b \/ (ex a = ex b /\ ed b <= ed a).

Lemma ele_refl : forall a, ele a a.
Proof. intros [x d]; unfold ele; simpl; lia. Qed.
Lemma ele_trans : forall a b c, ele a b -> ele b c -> ele a c.
Proof. intros [] [] []; unfold ele; simpl; lia. Qed.
Lemma ele_antisym : forall a b, ele a b -> ele b a -> a = b.
Proof.
  intros [x d] [y e]; unfold ele; simpl; intros.
  assert (x = y) by lia. assert (d = e) by lia. now subst.
Qed.
Lemma not_less_ele : forall a b, edgeLess a b = false -> ele b a.
Proof. intros [] []; unfold edgeLess, ele; simpl; lia. Qed.
Lemma less_ele : forall a b, edgeLess a b = true -> ele a b.
Proof. intros [] []; unfold edgeLess, ele; simpl; lia. Qed.

Inductive esorted : list edge -> Prop :=
| es_nil : esorted []
| es_cons : forall e l, Forall (ele e) l -> esorted l -> esorted (e :: l).

Lemma insert_perm : forall e l, Permutation (insertEdge e l) (e :: l).
Proof.
  induction l as [|a l IH]; simpl; auto.
  destruct (edgeLess a e); auto.
  rewrite IH. apply perm_swap.
Qed.

Lemma insert_sorted : forall e l, esorted l -> esorted (insertEdge e l).
Proof.
  induction 1 as [|a l Ha Hs IH]; simpl.
  - constructor; constructor.
  - destruct (edgeLess a e) eqn:E.
    + constructor; auto.
      rewrite insert_perm. constructor; auto. now apply less_ele.
    + apply not_less_ele in E. constructor.
      * constructor; auto. eapply Forall_impl; [|exact Ha].
        intros b Hb. eapply ele_trans; eauto.
      * constructor; auto.
Qed.

Lemma sort_perm : forall l, Permutation (sortEdges l) l.
Proof.
  induction l as [|a l IH]; simpl; auto. rewrite insert_perm. auto.
Qed.
Lemma sort_sorted : forall l, esorted (sortEdges l).
Proof. induction l; simpl; [constructor|now apply insert_sorted]. Qed.

(** Any sorted permutation is the result of [sortEdges]: the unspecified
    algorithm of [sort.Sort] makes no difference. *)
Lemma sorted_unique : forall l l', esorted l -> esorted l' -> Permutation l l' -> l = l'.
Proof.
  intros l l' H; revert l'.
  induction H as [|a l Ha Hs IH]; intros l' H' P.
  - apply Permutation_nil in P. now subst.
  - inversion H' as [|b m Hb Hs']; subst.
    + apply Permutation_sym, Permutation_nil in P. discriminate.
    + assert (a = b).
      { assert (I1 : In a (b :: m)) by (eapply Permutation_in; [exact P|now left]).
        assert (I2 : In b (a :: l)) by (eapply Permutation_in; [apply Permutation_sym; exact P|now left]).
        apply ele_antisym.
        - destruct I2 as [->|I2]; [apply ele_refl|].
          rewrite Forall_forall in Ha. now apply Ha.
        - destruct I1 as [->|I1]; [apply ele_refl|].
          rewrite Forall_forall in Hb. now apply Hb. }
      subst b. f_equal. apply IH; auto. now apply Permutation_cons_inv in P.
Qed.

Lemma sort_unique : forall l l', esorted l' -> Permutation l' l -> l' = sortEdges l.
Proof.
  intros. apply sorted_unique; auto using sort_sorted.
  rewrite H0. symmetry. apply sort_perm.
Qed.

(* ---------- depth ---------- *)

Definition before (e : edge) (x : Z) : bool :=
  (ex e <? x) || ((ex e =? x) && (ed e =? 1)).
Definition contrib (x : Z) (e : edge) : Z := if before e x then ed e else 0.
Fixpoint sumc (x : Z) (es : list edge) : Z :=
  match es with [] => 0 | e :: es' => contrib x e + sumc x es' end.
Fixpoint sumd (es : list edge) : Z :=
  match es with [] => 0 | e :: es' => ed e + sumd es' end.

Lemma before_mono : forall a b x, eok a -> eok b -> ele a b -> before b x = true -> before a x = true.
Proof. intros [] [] x; unfold eok, ele, before; simpl; lia. Qed.

Lemma sumc_none : forall x e es, eok e -> Forall eok es -> Forall (ele e) es ->
  before e x = false -> sumc x es = 0.
Proof.
  induction es as [|a es IH]; simpl; auto. intros He Hk Hl Hb.
  inversion Hk; inversion Hl; subst.
  unfold contrib. destruct (before a x) eqn:E.
  - assert (before e x = true) by (eapply before_mono with (b := a); eauto). congruence.
  - rewrite IH; auto.
Qed.

Lemma sumc_perm : forall x l l', Permutation l l' -> sumc x l = sumc x l'.
Proof. induction 1; simpl; lia. Qed.
Lemma sumd_perm : forall l l', Permutation l l' -> sumd l = sumd l'.
Proof. induction 1; simpl; lia. Qed.
Lemma sumc_app : forall x a b, sumc x (a ++ b) = sumc x a + sumc x b.
Proof. induction a; simpl; intros; rewrite ?IHa; lia. Qed.
Lemma sumd_app : forall a b, sumd (a ++ b) = sumd a + sumd b.
Proof. induction a; simpl; intros; rewrite ?IHa; lia. Qed.

Lemma covers_cons : forall i is x, covers (i :: is) x <-> (lo i <= x <= hi i \/ covers is x).
Proof.
  unfold covers; intros; split.
  - intros (j & [->|H] & B); [left; auto|right; eauto].
  - intros [B|(j & H & B)]; [exists i|exists j]; simpl; auto.
Qed.
Lemma covers_nil : forall x, ~ covers [] x.
Proof. intros x (i & [] & _). Qed.

Definition bnd (es : list edge) (b : Z) : Prop := Forall (fun e => b <= ex e) es.

Lemma sweep_spec : forall thresh es n inside start,
  1 <= thresh -> Forall eok es -> esorted es -> n + sumd es = 0 ->
  inside = (thresh <=? n) -> (inside = true -> Forall (fun e => start <= ex e) es) ->
  exists R, sweep thresh es n inside start = Ok R /\
    (forall x, covers R x <->
       (inside = true -> start <= x) /\ thresh <= n + sumc x es).
Proof.
  intros thresh es. induction es as [|e es IH]; intros n inside start Ht Hk Hs Hsum Hin Hst.
  - simpl in *. exists []. split; auto. intros x. split.
    + intros H; exfalso; eapply covers_nil; eauto.
    + intros [_ H]. lia.
  - inversion Hk as [|? ? He Hk']; subst. inversion Hs as [|? ? Hle Hs']; subst.
    cbn [sumd] in Hsum. cbn [sweep].
    assert (Hsplit : forall x, (before e x = true /\ n + sumc x (e :: es) = (n + ed e) + sumc x es) \/
                      (before e x = false /\ n + sumc x (e :: es) = n /\ sumc x es = 0)).
    { intros x. cbn [sumc]. unfold contrib. destruct (before e x) eqn:B.
      - left; split; auto; lia.
      - right. assert (sumc x es = 0) by (eapply sumc_none; eauto). repeat split; auto; lia. }
    assert (Hbnd : Forall (fun e' => ex e <= ex e') es).
    { eapply Forall_impl; [|exact Hle]. intros a Ha. unfold ele in Ha. lia. }
    destruct (thresh <=? n) eqn:En; cbn [negb andb].
    + (* inside *)
      destruct (n + ed e <? thresh) eqn:E2.
      * assert (Hd : ed e = -1) by (destruct He; lia).
        specialize (Hst eq_refl). inversion Hst as [|? ? Hse _]; subst.
        destruct (IH (n + ed e) false start) as (R & HR & HC); auto; try lia; try discriminate.
        unfold Range. replace (ex e <? start) with false by lia. cbn [bind].
        rewrite HR. cbn [bind]. eexists; split; [reflexivity|].
        intros x. rewrite covers_cons, HC. cbn [lo hi].
        destruct (Hsplit x) as [(B & D)|(B & D & Z0)]; rewrite D.
        -- unfold before in B. split; intros; intuition (try lia; try discriminate).
        -- unfold before in B. rewrite Z0. split; intros; intuition (try lia; try discriminate).
      * destruct (IH (n + ed e) true start) as (R & HR & HC); auto; try lia.
        { intros _. specialize (Hst eq_refl). now inversion Hst. }
        exists R; split; auto. intros x. rewrite HC.
        destruct (Hsplit x) as [(B & D)|(B & D & Z0)]; rewrite D; [reflexivity|].
        rewrite Z0. intuition lia.
    + destruct (thresh <=? n + ed e) eqn:E2.
      * assert (Hd : ed e = 1) by (destruct He; lia).
        destruct (IH (n + ed e) true (ex e)) as (R & HR & HC); auto; try lia.
        exists R; split; auto. intros x. rewrite HC.
        destruct (Hsplit x) as [(B & D)|(B & D & Z0)]; rewrite D; unfold before in B;
          rewrite ?Z0; split; intros; intuition (try lia; try discriminate).
      * destruct (IH (n + ed e) false start) as (R & HR & HC); auto; try lia; try discriminate.
        exists R; split; auto. intros x. rewrite HC.
        destruct (Hsplit x) as [(B & D)|(B & D & Z0)]; rewrite D; [reflexivity|].
        rewrite Z0. intuition (try lia; try discriminate).
Qed.

(** Results are ordered, and their end points are end points of the input. *)
Lemma sweep_ordered : forall thresh es n inside start b R,
  Forall eok es -> esorted es ->
  (inside = true -> b < start /\ Forall (fun e => start <= ex e) es) ->
  (inside = false -> Forall (fun e => b < ex e \/ (b = ex e /\ ed e = -1)) es) ->
  n + sumd es = 0 -> inside = (thresh <=? n) ->
  sweep thresh es n inside start = Ok R ->
  ordered_from b R /\
  Forall (fun i => (inside = true /\ lo i = start \/ exists e, In e es /\ ex e = lo i) /\
                   (exists e, In e es /\ ex e = hi i)) R.
Proof.
  intros thresh es. induction es as [|e es IH]; intros n inside start b R Hk Hs Hi Ho Hsum Hin HR.
  - simpl in HR. injection HR as <-. simpl. auto.
  - inversion Hk as [|? ? He Hk']; subst. inversion Hs as [|? ? Hle Hs']; subst.
    cbn [sumd] in Hsum. cbn [sweep] in HR.
    assert (Hbnd : Forall (fun e' => ex e <= ex e') es).
    { eapply Forall_impl; [|exact Hle]. intros a Ha. unfold ele in Ha. lia. }
    destruct (thresh <=? n) eqn:En; cbn [negb andb] in HR.
    + destruct (Hi eq_refl) as [Hb Hst]. inversion Hst as [|? ? Hse Hst']; subst.
      destruct (n + ed e <? thresh) eqn:E2.
      * assert (Hd : ed e = -1) by (destruct He; lia).
        unfold Range in HR. replace (ex e <? start) with false in HR by lia. cbn [bind] in HR.
        destruct (sweep thresh es (n + ed e) false start) as [R'| | |] eqn:E3; try discriminate.
        cbn [bind] in HR. injection HR as <-.
        destruct (IH (n + ed e) false start (ex e) R') as (O & F); auto; try lia; try discriminate.
        { intros _. rewrite Forall_forall in *. intros a Ha.
          specialize (Hle a Ha). specialize (Hk' a Ha). unfold ele in Hle. unfold eok in Hk'. lia. }
        split.
        -- cbn [ordered_from lo hi]. repeat split; auto; lia.
        -- constructor.
           ++ cbn [lo hi]. split; [left; auto|exists e; simpl; auto].
           ++ eapply Forall_impl; [|exact F]. intros i ([(? & _)|(a & ? & ?)] & (a' & ? & ?)); try discriminate.
              split; [right; exists a; simpl; auto|exists a'; simpl; auto].
      * destruct (IH (n + ed e) true start b R) as (O & F); auto; try lia; try discriminate.
        split; auto. eapply Forall_impl; [|exact F].
        intros i ([?|(a & ? & ?)] & (a' & ? & ?)).
        -- split; [left; tauto|exists a'; simpl; auto].
        -- split; [right; exists a; simpl; auto|exists a'; simpl; auto].
    + specialize (Ho eq_refl). inversion Ho as [|? ? Hbe Ho']; subst.
      destruct (thresh <=? n + ed e) eqn:E2.
      * assert (Hd : ed e = 1) by (destruct He; lia).
        destruct (IH (n + ed e) true (ex e) b R) as (O & F); auto; try lia; try discriminate.
        { intros _. split; auto. lia. }
        split; auto. eapply Forall_impl; [|exact F].
        intros i ([(_ & ?)|(a & ? & ?)] & (a' & ? & ?)).
        -- split; [right; exists e; simpl; auto|exists a'; simpl; auto].
        -- split; [right; exists a; simpl; auto|exists a'; simpl; auto].
      * destruct (IH (n + ed e) false start b R) as (O & F); auto; try lia; try discriminate.
        split; auto. eapply Forall_impl; [|exact F].
        intros i ([(? & _)|(a & ? & ?)] & (a' & ? & ?)); try discriminate.
        split; [right; exists a; simpl; auto|exists a'; simpl; auto].
Qed.

(* ---------- counting ---------- *)

Fixpoint count (x : Z) (is : list interval) : Z :=
  match is with
  | [] => 0
  | i :: is' => (if iContains i x then 1 else 0) + count x is'
  end.

Lemma count_nonneg : forall x is, 0 <= count x is.
Proof. induction is; simpl; try destruct (iContains _ _); lia. Qed.
Lemma count_app : forall x a b, count x (a ++ b) = count x a + count x b.
Proof. induction a; simpl; intros; rewrite ?IHa; lia. Qed.
Lemma iContains_spec : forall i x, iContains i x = true <-> lo i <= x <= hi i.
Proof. unfold iContains; intros; lia. Qed.

Lemma edges_count : forall x is, Forall valid is -> sumc x (intervaledges is) = count x is.
Proof.
  induction 1 as [|i is V _ IH]; simpl; auto.
  change (sumc x (mkE (lo i) 1 :: mkE (hi i) (-1) :: intervaledges is) =
    (if iContains i x then 1 else 0) + count x is).
  cbn [sumc]. rewrite IH. unfold contrib, before, iContains; simpl.
  destruct V as (? & ? & ?).
  repeat match goal with |- context [if ?b then _ else _] => destruct b eqn:? end; lia.
Qed.
Lemma edges_sumd : forall is, sumd (intervaledges is) = 0.
Proof.
  induction is as [|i is IH]; auto.
  change (sumd (mkE (lo i) 1 :: mkE (hi i) (-1) :: intervaledges is) = 0). cbn [sumd ed]. lia.
Qed.
Lemma edges_ok : forall is, Forall eok (intervaledges is).
Proof.
  induction is; simpl; auto. constructor; [left; auto|constructor; [right; auto|auto]].
Qed.

Lemma flat_concat : forall iss, flat_map intervaledges iss = intervaledges (concat iss).
Proof.
  induction iss; simpl; auto. rewrite IHiss. unfold intervaledges. now rewrite flat_map_app.
Qed.

Lemma edges_in : forall is e, In e (intervaledges is) -> exists i, In i is /\ (ex e = lo i \/ ex e = hi i).
Proof.
  intros is e H. unfold intervaledges in H. apply in_flat_map in H.
  destruct H as (i & Hi & [<-|[<-|[]]]); exists i; simpl; auto.
Qed.

Lemma ordered_from_valid : forall is b, ordered_from b is -> -1 <= b ->
  Forall (fun i => is_u64 (lo i) /\ is_u64 (hi i)) is -> Forall valid is.
Proof.
  induction is as [|i is IH]; intros b; simpl; auto.
  intros (? & ? & ?) Hb F. inversion F as [|? ? [A B] F']; subst. unfold is_u64 in *.
  constructor; [unfold valid; lia|]. eapply IH; eauto. lia.
Qed.

Lemma thresholds_spec : forall t iss, 1 <= t -> Forall valid (concat iss) ->
  exists R, thresholds t iss = Ok R /\
    (forall x, covers R x <-> t <= count x (concat iss)) /\
    Forall valid R /\ ordered R.
Proof.
  intros t iss Ht V. unfold thresholds. rewrite flat_concat.
  set (es := intervaledges (concat iss)).
  assert (P := sort_perm es).
  assert (K : Forall eok (sortEdges es)) by (rewrite P; apply edges_ok).
  assert (Sd : 0 + sumd (sortEdges es) = 0) by (rewrite (sumd_perm _ _ P); apply edges_sumd).
  destruct (sweep_spec t (sortEdges es) 0 false 0) as (R & HR & HC); auto; try lia; try discriminate.
  { apply sort_sorted. }
  exists R. split; auto.
  assert (B : forall e, In e (sortEdges es) -> is_u64 (ex e)).
  { intros e He. apply (Permutation_in _ P) in He. apply edges_in in He.
    destruct He as (i & Hi & He). rewrite Forall_forall in V. specialize (V i Hi).
    unfold valid in V. unfold is_u64. lia. }
  destruct (sweep_ordered t (sortEdges es) 0 false 0 (-1) R) as (O & F); auto; try lia; try discriminate.
  { apply sort_sorted. }
  { intros _. rewrite Forall_forall. intros e He. specialize (B e He). unfold is_u64 in B. lia. }
  repeat split; auto.
  - intros H. apply HC in H. rewrite (sumc_perm _ _ _ P) in H. unfold es in H.
    rewrite edges_count in H; auto. lia.
  - intros H. apply HC. rewrite (sumc_perm _ _ _ P). unfold es.
    rewrite edges_count; auto. split; [discriminate|lia].
  - eapply ordered_from_valid; [exact O|lia|].
    eapply Forall_impl; [|exact F]. intros i ([(? & _)|(a & Ia & Ea)] & (a' & Ia' & Ea')); try discriminate.
    rewrite <- Ea, <- Ea'. split; apply B; auto.
Qed.

Lemma count_covers : forall x is, covers is x <-> 1 <= count x is.
Proof.
  induction is as [|i is IH]; simpl.
  - split; [intros H; now apply covers_nil in H|lia].
  - rewrite covers_cons, IH. assert (N := count_nonneg x is).
    destruct (iContains i x) eqn:E.
    + apply iContains_spec in E. intuition lia.
    + assert (~ lo i <= x <= hi i) by (rewrite <- iContains_spec; congruence). intuition lia.
Qed.

Lemma count_split : forall x is, 1 <= count x is ->
  exists l1 i l2, is = l1 ++ i :: l2 /\ lo i <= x <= hi i /\ count x is = 1 + count x l2 /\ count x l1 = 0.
Proof.
  induction is as [|i is IH]; simpl; [lia|].
  destruct (iContains i x) eqn:E.
  - intros _. exists [], i, is. apply iContains_spec in E. repeat split; auto; lia.
  - intros H. destruct IH as (l1 & j & l2 & -> & B & C & D); [lia|].
    exists (i :: l1), j, l2. simpl. rewrite E. repeat split; auto; lia.
Qed.

Lemma count_twice : forall x is, covers_twice is x <-> 2 <= count x is.
Proof.
  intros x is. split.
  - intros (l1 & i & l2 & j & l3 & -> & A & B).
    apply iContains_spec in A. apply iContains_spec in B.
    rewrite count_app. simpl. rewrite count_app. simpl. rewrite A, B.
    pose proof (count_nonneg x l1). pose proof (count_nonneg x l2). pose proof (count_nonneg x l3). lia.
  - intros H. destruct (count_split x is) as (l1 & i & l2 & -> & A & C & _); [lia|].
    destruct (count_split x l2) as (l3 & j & l4 & -> & B & _); [lia|].
    exists l1, i, l3, j, l4. auto.
Qed.

Lemma ordered_count_le1 : forall is b, ordered_from b is -> forall x,
  count x is <= 1 /\ (x <= b -> count x is = 0).
Proof.
  induction is as [|i is IH]; simpl; intros b H x; [lia|].
  destruct H as (A & B & C). destruct (IH _ C x) as [D E].
  destruct (iContains i x) eqn:F; unfold iContains in F; lia.
Qed.

(* ---------- C01, C02 ---------- *)

Theorem simplify_correct : forall is, Forall valid is ->
  exists R, Simplify is = Ok R /\ (forall x, covers R x <-> covers is x) /\
    Forall valid R /\ ordered R.
Proof.
  intros is V. destruct (thresholds_spec 1 [is]) as (R & HR & HC & HV & HO); try lia.
  { simpl. now rewrite app_nil_r. }
  exists R. repeat split; auto; intros H.
  - apply HC in H. simpl in H. rewrite app_nil_r in H. now apply count_covers.
  - apply HC. simpl. rewrite app_nil_r. now apply count_covers.
Qed.

Theorem newset_correct : forall is, Forall valid is ->
  exists s, NewSet is = Ok s /\ (forall x, Contains s x = true <-> covers is x) /\ wf_set s.
Proof.
  intros is V. destruct (simplify_correct is V) as (R & HR & HC & HV & HO).
  unfold NewSet. rewrite HR. simpl. eexists; split; [reflexivity|].
  split; [|split; auto].
  intros x. rewrite <- HC. unfold Contains, covers. rewrite existsb_exists. simpl.
  split; intros (i & A & B); exists i; split; auto; now apply iContains_spec.
Qed.

Theorem overlaps_correct : forall is, Forall valid is ->
  exists b, Overlaps is = Ok b /\ (b = true <-> exists x, covers_twice is x).
Proof.
  intros is V. destruct (thresholds_spec 2 [is]) as (R & HR & HC & HV & HO); try lia.
  { simpl. now rewrite app_nil_r. }
  unfold Overlaps. rewrite HR. simpl.
  assert (HC' : forall x, covers R x <-> covers_twice is x).
  { intros x. rewrite HC, count_twice. simpl. now rewrite app_nil_r. }
  destruct R as [|i R].
  - exists false. split; auto. split; [discriminate|].
    intros (x & H). apply HC' in H. now apply covers_nil in H.
  - exists true. split; auto. split; auto. intros _.
    inversion HV as [|? ? Vi _]; subst. exists (lo i). apply HC'. apply covers_cons. left.
    unfold valid in Vi. lia.
Qed.

Lemma contains_covers : forall s x, Contains s x = true <-> covers (intervals s) x.
Proof.
  intros. unfold Contains, covers. rewrite existsb_exists.
  split; intros (i & A & B); exists i; split; auto; now apply iContains_spec.
Qed.

(* ---------- IntType ---------- *)

Theorem inttype_correct : forall n, 0 <= n <= 64 ->
  exists s, IntTypeSet n = Ok s /\ wf_set s /\
    (forall x, Contains s x = true <-> 0 <= x < 2 ^ n).
Proof.
  intros n Hn. unfold IntTypeSet, Bits.
  assert (E : u64 (u64 (2 ^ n) - 1) = 2 ^ n - 1).
  { unfold u64. destruct (Z.eq_dec n 64) as [->|N].
    - reflexivity.
    - assert (0 < 2 ^ n) by (apply Z.pow_pos_nonneg; lia).
      assert (2 ^ n <= 2 ^ 63) by (apply Z.pow_le_mono_r; lia).
      change (2 ^ 63) with 9223372036854775808 in *. c64.
      rewrite Z.mod_small with (a := 2 ^ n) by lia. rewrite Z.mod_small; lia. }
  rewrite E. assert (0 < 2 ^ n) by (apply Z.pow_pos_nonneg; lia).
  unfold Range. replace (2 ^ n - 1 <? 0) with false by lia. cbn [bind].
  assert (2 ^ n <= 2 ^ 64) by (apply Z.pow_le_mono_r; lia).
  destruct (newset_correct [mkI 0 (2 ^ n - 1)]) as (s & Hs & HC & HW).
  { constructor; auto. unfold valid; simpl. c64. change (2 ^ 64) with 18446744073709551616 in *. lia. }
  exists s. split; auto. split; auto. intros x. rewrite HC, covers_cons. simpl.
  split; [intros [?|F]; [lia|now apply covers_nil in F]|lia].
Qed.

(* ---------- C03 ---------- *)

Lemma complementFrom_spec : forall is b s,
  ordered_from b is -> Forall valid is -> -1 <= b -> b < two64 -> s = u64 (b + 1) ->
  (b = max64 -> is = []) -> (is = [] -> b <> -1) ->
  exists R, complementFrom s is = Ok R /\ Forall valid R /\ ordered_from b R /\
    (forall x, is_u64 x -> (covers R x <-> b < x /\ ~ covers is x)).
Proof.
  induction is as [|i is IH]; intros b s HO HV Hb Hb2 Hs Hm Hne; cbn [complementFrom].
  - specialize (Hne eq_refl). destruct (Z.eq_dec b max64) as [->|N].
    + replace s with 0 by (subst; reflexivity). rewrite Z.eqb_refl.
      exists []. split; auto. split; auto. split; [exact I|].
      intros x Hx. split; [intros F; now apply covers_nil in F|].
      intros (? & _). unfold is_u64 in *. c64. lia.
    + assert (s = b + 1) by (subst s; unfold u64; c64; rewrite Z.mod_small; lia).
      replace (s =? 0) with false by lia. unfold OpenRight, Range.
      replace (max64 <? s) with false by (c64; lia). cbn [bind].
      eexists; split; [reflexivity|]. split; [|split].
      * constructor; auto. unfold valid; simpl. c64. lia.
      * simpl. c64. lia.
      * intros x Hx. rewrite covers_cons. simpl. unfold is_u64 in Hx.
        split; [intros [?|F]; [split; [lia|apply covers_nil]|now apply covers_nil in F]|].
        intros (? & _). left. c64. lia.
  - destruct HO as (A & B & C). pose proof (Forall_inv HV) as Vi; pose proof (Forall_inv_tail HV) as HV'. unfold valid in Vi.
    assert (Hs' : s = b + 1).
    { subst s. unfold u64. c64. apply Z.mod_small. lia. }
    destruct (IH (hi i) (u64 (hi i + 1))) as (R & HR & VR & OR & HC); auto; try lia.
    { intros E. destruct is as [|j is']; auto. exfalso. simpl in C.
      inversion HV' as [|? ? Vj _]; subst. unfold valid in Vj. c64. lia. }
    destruct (s <? lo i) eqn:E.
    + assert (E1 : u64 (lo i - 1) = lo i - 1) by (unfold u64; apply Z.mod_small; c64; lia).
      rewrite E1. unfold Range. replace (lo i - 1 <? s) with false by lia. cbn [bind].
      rewrite HR. cbn [bind]. eexists; split; [reflexivity|]. split; [|split].
      * constructor; auto. unfold valid; simpl. lia.
      * simpl. split; [lia|split; [lia|]].
        destruct R as [|j R']; simpl in *; auto. intuition lia.
      * intros x Hx. rewrite covers_cons, covers_cons, HC by auto. simpl. split.
        -- intros [?|(? & ?)].
           ++ split; [lia|]. intros [?|F]; [lia|].
              apply count_covers in F. destruct (ordered_count_le1 _ _ C x) as [_ G].
              rewrite G in F; lia.
           ++ split; [lia|]. intros [?|F]; [lia|auto].
        -- intros (? & N). destruct (Z_lt_ge_dec x (lo i)); [left; lia|].
           right. split; [|tauto]. destruct (Z_le_gt_dec x (hi i)); [exfalso; apply N; left; lia|lia].
    + exists R. split; auto. split; auto. split.
      * destruct R as [|j R']; simpl in *; auto. intuition lia.
      * intros x Hx. rewrite covers_cons, HC by auto. split.
        -- intros (? & ?). split; [lia|]. intros [?|F]; [lia|auto].
        -- intros (? & N). split; [|tauto].
           destruct (Z_le_gt_dec x (hi i)); [exfalso; apply N; left; lia|lia].
Qed.

Theorem subtract_correct : forall s o, wf_set s -> wf_set o -> intervals o <> [] ->
  exists r, Subtract s o = Ok r /\ wf_set r /\
    (forall x, Contains r x = true <-> Contains s x = true /\ Contains o x = false).
Proof.
  intros [si] [oi] [VS OS] [VO OO] Hne. unfold wf_set in *. simpl in *. unfold Subtract. simpl.
  destruct (complementFrom_spec oi (-1) 0) as (C & HC & VC & OC & CC); auto; try lia.
  { reflexivity. } { intros E; c64; lia. }
  unfold complement. rewrite HC. cbn [bind].
  destruct (thresholds_spec 2 [si; C]) as (R & HR & HT & VR & OR); try lia.
  { simpl. rewrite app_nil_r. now apply Forall_app. }
  rewrite HR. cbn [bind]. eexists; split; [reflexivity|]. split; [split; auto|].
  intros x. rewrite !contains_covers. simpl. rewrite HT. simpl. rewrite app_nil_r, count_app.
  destruct (ordered_count_le1 _ _ OS x) as [S1 _]. destruct (ordered_count_le1 _ _ OC x) as [C1 _].
  pose proof (count_nonneg x si). pose proof (count_nonneg x C).
  assert (NB : Contains {| intervals := oi |} x = false <-> ~ covers oi x).
  { rewrite <- not_true_iff_false, contains_covers. simpl. reflexivity. }
  rewrite NB. rewrite count_covers. split.
  - intros. assert (D : 1 <= count x si) by lia. assert (E : 1 <= count x C) by lia.
    split; auto. apply count_covers in E.
    assert (X : is_u64 x).
    { destruct E as (j & J1 & J2). rewrite Forall_forall in VC. specialize (VC j J1).
      unfold valid in VC. unfold is_u64. lia. }
    apply CC in E; auto. tauto.
  - intros (D & E). assert (X : is_u64 x).
    { apply count_covers in D. destruct D as (j & J1 & J2). rewrite Forall_forall in VS.
      specialize (VS j J1). unfold valid in VS. unfold is_u64. lia. }
    assert (F : covers C x) by (apply CC; auto; split; auto; unfold is_u64 in X; lia).
    apply count_covers in F. lia.
Qed.

Theorem subtract_empty : forall s, wf_set s ->
  Subtract s (mkSet []) = Ok (mkSet []).
Proof.
  intros [si] [VS OS]. unfold Subtract, complement. simpl in *.
  destruct (thresholds_spec 2 [si; []]) as (R & HR & HT & VR & OR); try lia.
  { simpl. now rewrite app_nil_r. }
  rewrite HR. simpl. destruct R as [|i R]; auto. exfalso.
  inversion VR as [|? ? Vi _]; subst. unfold valid in Vi.
  assert (covers (i :: R) (lo i)) by (apply covers_cons; left; lia).
  apply HT in H. simpl in H. rewrite app_nil_r in H.
  destruct (ordered_count_le1 _ _ OS (lo i)). lia.
Qed.

(** [Simplify] does not join touching intervals. *)
Lemma simplify_not_minimal : exists is R R',
  Forall valid is /\ Simplify is = Ok R /\
  (forall x, covers R' x <-> covers is x) /\ (List.length R' < List.length R)%nat.
Proof.
  exists [mkI 1 2; mkI 3 4], [mkI 1 2; mkI 3 4], [mkI 1 4].
  split; [|split; [reflexivity|split]].
  - repeat constructor; vm_compute; congruence.
  - intros x. rewrite !covers_cons. cbn [lo hi].
    assert (covers [] x <-> False) by (split; [apply covers_nil|tauto]). intuition lia.
  - simpl. lia.
Qed.

(** Witness used for the refutation of C03. *)
Lemma subtract_witness : exists s o x r, wf_set s /\ wf_set o /\
  Contains s x = true /\ Contains o x = false /\
  Subtract s o = Ok r /\ Contains r x = false.
Proof.
  exists (mkSet [mkI 3 4]), (mkSet []), 3, (mkSet []).
  repeat split; try reflexivity; repeat constructor; vm_compute; congruence.
Qed.
