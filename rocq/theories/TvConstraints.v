(** Facts about constraint maps (tv/constraints.go). *)
From Coq Require Import ZArith String List Bool Lia Permutation.
From Verif Require Import Base Ast InspectProofs TvModel.
Import ListNotations.
Open Scope string_scope.
Open Scope list_scope.
Open Scope Z_scope.

(** A Go map has each key once. *)
Definition goMap (c : cons) : Prop := NoDup (akeys c) /\ Forall (fun sv => NoDup (akeys (snd sv))) c.

(** Iteration orders visit every entry once. *)
Definition goodOrders (o : uorders) : Prop :=
  (forall c, Permutation (uo_scopes o c) c) /\ (forall s m, Permutation (uo_values o s m) m).

(** The bindings that two maps have in common agree. *)
Definition compatible (c d : cons) : Prop :=
  forall s k u v, cLookup c s k = Some u -> cLookup d s k = Some v -> u = v.

Lemma alookup_in : forall {A} k (v : A) m, alookup k m = Some v -> In (k, v) m.
Proof.
  induction m as [|[k' v'] m IH]; cbn; intros; [discriminate|].
  destruct (String.eqb_spec k k'); [inversion H; subst; auto|auto].
Qed.
Lemma alookup_nodup : forall {A} k (v : A) m, NoDup (akeys m) -> (alookup k m = Some v <-> In (k, v) m).
Proof.
  split; [apply alookup_in|]. induction m as [|[k' v'] m IH]; cbn; intros; [tauto|].
  inversion H; subst. destruct (String.eqb_spec k k').
  - subst. destruct H0; [congruence|]. exfalso. apply H3. unfold akeys. change k' with (fst (k', v)). now apply in_map.
  - destruct H0; [congruence|auto].
Qed.
Lemma akeys_ainsert : forall {A} k (v : A) m x, In x (akeys (ainsert k v m)) <-> x = k \/ In x (akeys m).
Proof.
  induction m as [|[k' v'] m IH]; cbn; intros; [intuition|].
  destruct (String.eqb_spec k k'); cbn; [subst; intuition|]. rewrite IH. intuition.
Qed.
Lemma nodup_ainsert : forall {A} k (v : A) m, NoDup (akeys m) -> NoDup (akeys (ainsert k v m)).
Proof.
  induction m as [|[k' v'] m IH]; cbn; intros; [repeat constructor; auto|].
  inversion H; subst. destruct (String.eqb_spec k k'); cbn; [subst; constructor; auto|].
  constructor; [|auto]. intros I. apply akeys_ainsert in I. intuition.
Qed.
Lemma forall_ainsert : forall {A} (P : string * A -> Prop) k v m, Forall P m -> P (k, v) -> Forall P (ainsert k v m).
Proof.
  induction m as [|[k' v'] m IH]; cbn; intros; [auto|]. inversion H; subst.
  destruct (String.eqb_spec k k'); subst; constructor; auto.
Qed.

Lemma cSet_lookup : forall c s k v c', cSet c s k v = Ok c' -> forall s' k',
  cLookup c' s' k' = if String.eqb s s' && String.eqb k k' then Some v else cLookup c s' k'.
Proof.
  intros c s k v c' H s' k'. unfold cSet in H.
  assert (E : c' = ainsert s (ainsert k v match alookup s c with None => [] | Some vs => vs end) c).
  { destruct (alookup k _) as [u|]; [destruct (u =? v)|]; now inversion H. }
  subst c'. unfold cLookup. rewrite alookup_ainsert. rewrite String.eqb_sym.
  destruct (String.eqb_spec s s'); cbn [andb].
  - subst. rewrite alookup_ainsert, String.eqb_sym. destruct (String.eqb_spec k k'); [auto|].
    destruct (alookup s' c); auto.
  - auto.
Qed.
Lemma cSet_ok : forall c s k v, (exists c', cSet c s k v = Ok c') <-> (forall u, cLookup c s k = Some u -> u = v).
Proof.
  intros. unfold cSet, cLookup. destruct (alookup s c) as [vs|] eqn:E.
  - destruct (alookup k vs) as [u|].
    + destruct (Z.eqb_spec u v).
      * split; [intros _ w W; congruence|intros; eauto].
      * split; [intros (c' & H); discriminate|intros H; exfalso; apply n; auto].
    + split; [intros _ w W; discriminate|intros; eauto].
  - cbn. split; [intros _ w W; discriminate|intros; eauto].
Qed.
Lemma cSet_err : forall c s k v u, cLookup c s k = Some u -> u <> v -> cSet c s k v = Err "conflicting constraint".
Proof.
  unfold cSet, cLookup. intros. destruct (alookup s c) as [vs|]; [|discriminate]. rewrite H.
  destruct (Z.eqb_spec u v); [contradiction|auto].
Qed.
Lemma cSet_total : forall c s k v, (exists c', cSet c s k v = Ok c') \/ cSet c s k v = Err "conflicting constraint".
Proof.
  intros. destruct (cLookup c s k) as [u|] eqn:E.
  - destruct (Z.eq_dec u v); [left; apply cSet_ok; intros; congruence|right; eapply cSet_err; eauto].
  - left. apply cSet_ok. intros. congruence.
Qed.
Lemma cSet_goMap : forall c s k v c', cSet c s k v = Ok c' -> goMap c -> goMap c'.
Proof.
  intros c s k v c' H (N & F). unfold cSet in H.
  assert (E : c' = ainsert s (ainsert k v match alookup s c with None => [] | Some vs => vs end) c).
  { destruct (alookup k _) as [u|]; [destruct (u =? v)|]; now inversion H. }
  subst c'. split; [now apply nodup_ainsert|]. apply forall_ainsert; auto. cbn. apply nodup_ainsert.
  destruct (alookup s c) as [vs|] eqn:E; [|constructor]. rewrite Forall_forall in F. apply alookup_in in E.
  apply (F _ E).
Qed.
(** A map none of whose scopes is empty. *)
Definition noEmpty (c : cons) : Prop := forall s vs, In (s, vs) c -> vs <> [].
Lemma cSet_noEmpty : forall c s k v c', cSet c s k v = Ok c' -> noEmpty c -> noEmpty c'.
Proof.
  intros c s k v c' H N. unfold cSet in H.
  assert (E : c' = ainsert s (ainsert k v match alookup s c with None => [] | Some vs => vs end) c).
  { destruct (alookup k _) as [u|]; [destruct (u =? v)|]; now inversion H. }
  subst c'. set (vs0 := match alookup s c with None => [] | Some vs => vs end). clearbody vs0. clear H.
  assert (Q : ainsert k v vs0 <> []) by (destruct vs0 as [|[a b] t]; cbn; [discriminate|destruct (String.eqb k a); discriminate]).
  intros s' vs I. assert (F : Forall (fun sv => snd sv <> []) (ainsert s (ainsert k v vs0) c)).
  { apply forall_ainsert; auto. apply Forall_forall. intros [a b] J. cbn. eapply N; eauto. }
  rewrite Forall_forall in F. apply (F _ I).
Qed.

Definition bound (l : list (string * string * Z)) (s k : string) (v : Z) : Prop := In (s, k, v) l.

(** Setting a list of bindings. *)
Lemma cSetAll_spec : forall l c,
  (forall s k u v, bound l s k u -> bound l s k v -> u = v) ->
  ((exists m, cSetAll c l = Ok m) <-> (forall s k u v, cLookup c s k = Some u -> bound l s k v -> u = v)) /\
  (forall m, cSetAll c l = Ok m -> forall s k v, cLookup m s k = Some v <-> cLookup c s k = Some v \/ bound l s k v).
Proof.
  induction l as [|[[s0 k0] v0] l IH]; intros c F.
  - cbn. split; [split; [intros _ s k u v _ []|intros _; exists c; reflexivity]|]. intros m H. inversion H; subst. unfold bound. cbn. intuition.
  - assert (F' : forall s k u v, bound l s k u -> bound l s k v -> u = v) by (intros s k u v B1 B2; apply (F s k u v); right; auto).
    cbn [cSetAll]. destruct (cSet_total c s0 k0 v0) as [(c' & E)|E]; rewrite E; cbn [bind].
    + destruct (IH c' F') as (I1 & I2). split.
      * rewrite I1. split; intros H s k u v L B.
        -- destruct B as [B|B].
           ++ inversion B; subst. apply (proj1 (cSet_ok c s k v)); [exists c'; exact E|exact L].
           ++ destruct (String.eqb s0 s && String.eqb k0 k) eqn:Q.
              ** apply andb_true_iff in Q. destruct Q as (Q1 & Q2). apply String.eqb_eq in Q1, Q2. subst.
                 assert (u = v0) by (apply (proj1 (cSet_ok c s k v0)); [exists c'; exact E|exact L]). subst u.
                 apply (F s k v0 v); [left; reflexivity|right; auto].
              ** apply (H s k u v); auto. rewrite (cSet_lookup _ _ _ _ _ E), Q. auto.
        -- rewrite (cSet_lookup _ _ _ _ _ E) in L. destruct (String.eqb s0 s && String.eqb k0 k) eqn:Q.
           ++ apply andb_true_iff in Q. destruct Q as (Q1 & Q2). apply String.eqb_eq in Q1, Q2. subst.
              inversion L; subst. apply (F s k u v); [left; reflexivity|right; auto].
           ++ apply (H s k u v L). right. auto.
      * intros m M s k v. rewrite (I2 m M). rewrite (cSet_lookup _ _ _ _ _ E).
        destruct (String.eqb s0 s && String.eqb k0 k) eqn:Q.
        -- apply andb_true_iff in Q. destruct Q as (Q1 & Q2). apply String.eqb_eq in Q1, Q2. subst.
           split.
           ++ intros [L|B]; [inversion L; subst; right; left; auto|right; right; auto].
           ++ intros [L|[B|B]].
              ** left. f_equal. symmetry. apply (proj1 (cSet_ok c s k v0)); [exists c'; exact E|exact L].
              ** inversion B; subst. auto.
              ** auto.
        -- split; intros [L|B]; auto.
           ++ right. right. auto.
           ++ destruct B as [B|B]; auto. inversion B; subst. rewrite !String.eqb_refl in Q. discriminate.
    + split.
      * split; [intros (m & M); discriminate|]. intros H. exfalso.
        assert (D : ~ exists c', cSet c s0 k0 v0 = Ok c') by (intros (c' & C); congruence).
        apply D. apply cSet_ok. intros u U. apply (H s0 k0 u v0 U). left. reflexivity.
      * discriminate.
Qed.
Lemma cSetAll_total : forall l c, (exists m, cSetAll c l = Ok m) \/ cSetAll c l = Err "conflicting constraint".
Proof.
  induction l as [|[[s k] v] l IH]; intros; cbn; [eauto|].
  destruct (cSet_total c s k v) as [(c' & E)|E]; rewrite E; cbn; auto.
Qed.
Lemma cSetAll_goMap : forall l c m, cSetAll c l = Ok m -> goMap c -> goMap m.
Proof.
  induction l as [|[[s k] v] l IH]; cbn; intros; [now inversion H; subst|].
  destruct (cSet c s k v) eqn:E; try discriminate. cbn in H. eapply IH; eauto. eapply cSet_goMap; eauto.
Qed.
Lemma cSetAll_noEmpty : forall l c m, cSetAll c l = Ok m -> noEmpty c -> noEmpty m.
Proof.
  induction l as [|[[s k] v] l IH]; cbn; intros; [now inversion H; subst|].
  destruct (cSet c s k v) eqn:E; try discriminate. cbn in H. eapply IH; eauto. eapply cSet_noEmpty; eauto.
Qed.

Lemma bindings_spec : forall o d, goodOrders o -> goMap d -> forall s k v, bound (cBindings o d) s k v <-> cLookup d s k = Some v.
Proof.
  intros o d (O1 & O2) (N & F) s k v. unfold bound, cBindings. rewrite in_flat_map. split.
  - intros ([s' vs] & I & J). cbn in J. apply in_map_iff in J. destruct J as ([k' v'] & E & J). inversion E; subst.
    assert (I' : In (s, vs) d) by (eapply Permutation_in; [apply O1|auto]).
    assert (J' : In (k, v) vs) by (eapply Permutation_in; [apply O2|eauto]).
    unfold cLookup. rewrite (proj2 (alookup_nodup s vs d N) I'). rewrite Forall_forall in F.
    apply alookup_nodup; auto. apply (F _ I').
  - unfold cLookup. destruct (alookup s d) as [vs|] eqn:E; [|discriminate]. intros H. exists (s, vs). split.
    + eapply Permutation_in; [apply Permutation_sym, O1|]. now apply alookup_in.
    + cbn. apply in_map_iff. exists (k, v). split; auto. eapply Permutation_in; [apply Permutation_sym, O2|]. now apply alookup_in.
Qed.
Lemma bindings_fun : forall o d, goodOrders o -> goMap d -> forall s k u v,
  bound (cBindings o d) s k u -> bound (cBindings o d) s k v -> u = v.
Proof. intros. apply (bindings_spec o d) in H1, H2; auto. congruence. Qed.

Lemma update_spec : forall o c d, goodOrders o -> goMap d ->
  ((exists m, cUpdate o c d = Ok m) <-> compatible c d) /\
  (forall m, cUpdate o c d = Ok m -> forall s k v, cLookup m s k = Some v <-> cLookup c s k = Some v \/ cLookup d s k = Some v).
Proof.
  intros o c d O G. unfold cUpdate. destruct (cSetAll_spec (cBindings o d) c (bindings_fun o d O G)) as (A & B). split.
  - rewrite A. unfold compatible. split; intros H s k u v L M.
    + eapply H; eauto. apply bindings_spec; auto.
    + eapply H; eauto. apply (bindings_spec o d); auto.
  - intros m M s k v. rewrite (B m M). now rewrite (bindings_spec o d O G).
Qed.
Lemma lookup_new : forall s k, cLookup NewConstraints s k = None.
Proof. reflexivity. Qed.
Lemma goMap_new : goMap NewConstraints.
Proof. split; constructor. Qed.
Lemma noEmpty_new : noEmpty NewConstraints.
Proof. intros s vs []. Qed.

Lemma clone_spec : forall o c, goodOrders o -> goMap c -> exists m, cClone o c = Ok m /\ goMap m /\ noEmpty m /\
  forall s k, cLookup m s k = cLookup c s k.
Proof.
  intros o c O G. destruct (update_spec o NewConstraints c O G) as (A & B).
  destruct (proj2 A) as (m & M); [intros s k u v L; discriminate|].
  exists m. unfold cClone. rewrite M. split; [auto|]. split; [eapply cSetAll_goMap; eauto using goMap_new|].
  split; [eapply cSetAll_noEmpty; eauto using noEmpty_new|]. intros.
  destruct (cLookup c s k) as [v|] eqn:E.
  - apply (B m M). auto.
  - destruct (cLookup m s k) as [v|] eqn:E'; auto. apply (B m M) in E'. rewrite lookup_new, E in E'. destruct E'; discriminate.
Qed.
Lemma clone_total : forall o c, exists x, cClone o c = x /\ (forall e, x <> Err e) /\ x <> OutOfFuel.
Proof.
  intros. eexists. split; [reflexivity|]. unfold cClone, cUpdate.
  destruct (cSetAll_total (cBindings o c) NewConstraints) as [(m & E)|E]; rewrite E; split; discriminate.
Qed.

Lemma merge_spec : forall o1 o2 c d, goodOrders o1 -> goodOrders o2 -> goMap c -> goMap d ->
  ((exists m, cMerge o1 o2 c d = Ok m) <-> compatible c d) /\
  (~ compatible c d -> cMerge o1 o2 c d = Err "conflicting constraint") /\
  (forall m, cMerge o1 o2 c d = Ok m -> goMap m /\ noEmpty m /\
     forall s k, cLookup m s k = match cLookup c s k with Some v => Some v | None => cLookup d s k end).
Proof.
  intros o1 o2 c d O1 O2 C D. destruct (clone_spec o1 c O1 C) as (c' & E & G & N & L).
  unfold cMerge. rewrite E. cbn [bind]. destruct (update_spec o2 c' d O2 D) as (A & B).
  assert (Q : compatible c' d <-> compatible c d).
  { unfold compatible. split; intros H s k u v; [rewrite <- L|rewrite L]; apply H. }
  rewrite Q in A. split; [exact A|]. split.
  - intros H. destruct (cSetAll_total (cBindings o2 d) c') as [X|X]; [|exact X].
    exfalso. apply H, A. exact X.
  - intros m M. split; [eapply cSetAll_goMap; eauto|]. split; [eapply cSetAll_noEmpty; eauto|].
    intros s k. specialize (B m M s k). rewrite L in B.
    assert (CP : compatible c d) by (apply A; eauto). destruct (cLookup c s k) as [v|] eqn:E1.
    + apply B. auto.
    + destruct (cLookup d s k) as [v|] eqn:E2; [apply B; auto|].
      destruct (cLookup m s k) as [v|] eqn:E3; auto. destruct (proj1 (B v) eq_refl); discriminate.
Qed.

Lemma clearLocal_lookup : forall c s k, cLookup (cClearLocal c) s k = if String.eqb s "" then None else cLookup c s k.
Proof.
  intros. unfold cLookup, cClearLocal. assert (H : alookup s (adelete "" c) = if String.eqb s "" then None else alookup s c).
  { induction c as [|[s' vs] c IH]; [cbn; destruct (String.eqb s ""); auto|]. cbn [adelete alookup].
    destruct (String.eqb_spec "" s').
    - subst s'. rewrite IH. destruct (String.eqb_spec s ""); auto.
    - cbn [alookup]. rewrite IH. destruct (String.eqb_spec s s'); auto. subst. destruct (String.eqb_spec s' ""); auto. congruence. }
  rewrite H. destruct (String.eqb s ""); auto.
Qed.
Lemma adelete_in : forall {A} k (m : amap A) x, In x (adelete k m) <-> In x m /\ fst x <> k.
Proof.
  induction m as [|[k' v'] m IH]; intros; cbn [adelete In]; [tauto|]. destruct (String.eqb_spec k k').
  - subst. rewrite IH. split; [intuition|]. intros [[H|H] N]; [subst; cbn in N; congruence|auto].
  - cbn [In]. rewrite IH. split; [intros [H|H]; [subst; cbn; split; auto; congruence|intuition]|]. intuition.
Qed.
Lemma clearLocal_goMap : forall c, goMap c -> goMap (cClearLocal c).
Proof.
  intros c (N & F). unfold cClearLocal. split.
  - clear F. induction c as [|[k v] c IH]; cbn [adelete akeys map]; [auto|]. inversion N; subst.
    destruct (String.eqb "" k); [auto|]. cbn. constructor; auto. intros I. apply H1. unfold akeys in *.
    apply in_map_iff in I. destruct I as (x & X & I). apply adelete_in in I. rewrite <- X. apply in_map, I.
  - apply Forall_forall. intros x I. apply adelete_in in I. rewrite Forall_forall in F. apply F, I.
Qed.
Lemma clearLocal_noEmpty : forall c, noEmpty c -> noEmpty (cClearLocal c).
Proof. intros c N s vs I. apply adelete_in in I. eapply N, I. Qed.

Lemma lookupOrCreate_spec : forall c s k v, goMap c -> exists u c', cLookupOrCreate c s k v = Ok (u, c') /\ goMap c' /\
  cLookup c' s k = Some u /\ (cLookup c s k = Some u \/ cLookup c s k = None /\ u = v) /\
  (forall s' k', (s', k') <> (s, k) -> cLookup c' s' k' = cLookup c s' k') /\ (noEmpty c -> noEmpty c').
Proof.
  intros. unfold cLookupOrCreate. destruct (cLookup c s k) as [u|] eqn:E.
  - exists u, c. intuition.
  - destruct (proj2 (cSet_ok c s k v)) as (c' & C); [intros; congruence|]. rewrite C. exists v, c'.
    split; [auto|]. split; [eapply cSet_goMap; eauto|]. split; [rewrite (cSet_lookup _ _ _ _ _ C), !String.eqb_refl; auto|].
    split; [auto|]. split; [|eapply cSet_noEmpty; eauto]. intros. rewrite (cSet_lookup _ _ _ _ _ C).
    destruct (String.eqb_spec s s'), (String.eqb_spec k k'); cbn; auto. subst. congruence.
Qed.
