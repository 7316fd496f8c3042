(** The constraints that a test vector carries are about contexts of its struct. *)
From Coq Require Import ZArith String List Bool Lia Arith Permutation.
From Verif Require Import Base Ast IntervalsModel InspectModel InspectSpec InspectProofs GoLang GenModel GenCheck GenSimBody GenSimProg WireProofs PackageSpec PackageProofs TvModel TvConstraints TvHeap TvFacts TvAlone TvDet.
From Verif Require TvSucceed TvTidy.
Import ListNotations.
Open Scope string_scope.
Open Scope list_scope.
Open Scope nat_scope.

Section Scopes.
Variable C : list string.
Definition inScope (s : string) : Prop := s = "" \/ In s C.
Definition scoped (c : cons) : Prop := forall s, In s (map fst c) -> inScope s.

Lemma ainsert_key : forall {A} k (v : A) m x, In x (map fst (ainsert k v m)) -> x = k \/ In x (map fst m).
Proof.
  induction m as [|[k' v'] m IH]; intros x H; cbn in *; [destruct H as [<-|[]]; auto|].
  destruct (String.eqb k k'); cbn in H; [intuition|]. destruct H as [<-|H]; auto. apply IH in H. tauto.
Qed.
Lemma adelete_key : forall {A} k (m : amap A) x, In x (map fst (adelete k m)) -> x <> k /\ In x (map fst m).
Proof.
  induction m as [|[k' v'] m IH]; intros x H; cbn in *; [destruct H|].
  destruct (String.eqb k k') eqn:E; [apply IH in H; tauto|]. cbn in H. destruct H as [->|H]; [|apply IH in H; tauto].
  split; auto. intros ->. rewrite String.eqb_refl in E. discriminate.
Qed.
Lemma set_scoped : forall c s k v c', scoped c -> inScope s -> cSet c s k v = Ok c' -> scoped c'.
Proof.
  intros c s k v c' S I H. unfold cSet in H.
  assert (c' = ainsert s (ainsert k v match alookup s c with None => [] | Some vs => vs end) c).
  { destruct (alookup k _) as [u|]; [destruct (Z.eqb u v); [|discriminate]|]; now inversion H. }
  subst c'. intros x J. apply ainsert_key in J as [->|J]; auto.
Qed.
Lemma setAll_scoped : forall l c c', scoped c -> (forall s k v, In (s, k, v) l -> inScope s) -> cSetAll c l = Ok c' -> scoped c'.
Proof.
  induction l as [|[[s k] v] l IH]; intros c c' S I H; cbn [cSetAll] in H; [now inversion H; subst|].
  apply bind_ok in H as (c1 & H1 & H). refine (IH c1 c' _ _ H); [|intros; eapply I; right; eauto].
  eapply set_scoped; eauto. eapply I. left. reflexivity.
Qed.
Lemma update_scoped : forall o c d m, goodOrders o -> scoped c -> scoped d -> cUpdate o c d = Ok m -> scoped m.
Proof.
  intros o c d m (O1 & _) S D H. refine (setAll_scoped _ _ _ S _ H). intros s k v I. apply in_flat_map in I as ([s' vs] & I & J).
  apply in_map_iff in J as ([k' v'] & E & _). inversion E; subst. apply D. apply (in_map fst _ (s, vs)). eapply Permutation_in; [apply O1|auto].
Qed.
Lemma nil_scoped : scoped [].
Proof. intros s []. Qed.
Lemma clone_scoped : forall o c m, goodOrders o -> scoped c -> cClone o c = Ok m -> scoped m.
Proof.
  intros o c m O S H. unfold cClone in H. destruct (cUpdate o NewConstraints c) as [x| | |] eqn:E; try discriminate. inversion H; subst.
  exact (update_scoped o NewConstraints c m O nil_scoped S E).
Qed.
Lemma clear_scoped : forall c, scoped c -> scoped (cClearLocal c).
Proof. intros c S s I. apply adelete_key in I as (_ & I). auto. Qed.
Lemma create_scoped : forall c s k v u c', scoped c -> inScope s -> cLookupOrCreate c s k v = Ok (u, c') -> scoped c'.
Proof.
  intros c s k v u c' S I H. unfold cLookupOrCreate in H. destruct (cLookup c s k); [now inversion H; subst|].
  destruct (cSet c s k v) as [x| | |] eqn:E; try discriminate. inversion H; subst. eapply set_scoped; eauto.
Qed.

(** Maps from [b] on are in scope, the others are those of [m0]. *)
Variable b : nat.
Variable m0 : nat -> cons.
Record inv (g : gst) : Prop := {
  iv_len : b <= List.length (maps g);
  iv_cur : b <= cur g;
  iv_old : forall i, i < b -> mapOf g i = m0 i;
  iv_new : forall i, b <= i -> scoped (mapOf g i) }.
Definition post (x : list vec * gst) : Prop := inv (snd x) /\ Forall (fun v => b <= vcons v) (fst x).
Lemma one_post : forall v g, inv g -> b <= vcons v -> post ([v], g).
Proof. intros v g I L. split; cbn; auto. Qed.
Definition safe (m : gst -> outcome (list vec * gst)) : Prop := forall g x, inv g -> m g = Ok x -> post x.

Lemma inv_same : forall g g', maps g' = maps g -> cur g' = cur g -> inv g -> inv g'.
Proof. intros g g' M K [I1 I2 I3 I4]. constructor; unfold mapOf in *; rewrite ?M, ?K; auto. Qed.
Lemma inv_cur : forall g i, inv g -> b <= i -> inv (setCur i g).
Proof. intros g i [I1 I2 I3 I4] L. constructor; auto. Qed.
Lemma inv_newMap : forall g c, inv g -> scoped c -> inv (snd (newMap c g)) /\ b <= fst (newMap c g).
Proof.
  intros g c [I1 I2 I3 I4] S. cbn. split; auto. constructor; cbn; auto.
  - rewrite app_length. lia.
  - intros i L. unfold mapOf. cbn. rewrite app_nth1 by lia. now apply I3.
  - intros i L. unfold mapOf. cbn. destruct (Nat.lt_ge_cases i (List.length (maps g))).
    + rewrite app_nth1 by lia. now apply I4.
    + rewrite app_nth2 by lia. destruct (i - List.length (maps g)) as [|[|]]; cbn; auto; apply nil_scoped.
Qed.
Lemma inv_put : forall g i c, inv g -> b <= i -> scoped c -> inv (putMap i c g).
Proof.
  intros g i c [I1 I2 I3 I4] L S. constructor; auto.
  - now rewrite putMap_len.
  - intros j J. rewrite putMap_other by lia. now apply I3.
  - intros j J. destruct (Nat.eq_dec j i) as [->|N]; [|rewrite putMap_other by lia; now apply I4].
    destruct (Nat.lt_ge_cases i (List.length (maps g))); [rewrite putMap_same; auto|].
    unfold mapOf. rewrite nth_overflow; [apply nil_scoped|]. rewrite putMap_len. lia.
Qed.

Variable ords : nat -> uorders.
Hypothesis Hords : forall n, goodOrders (ords n).
Variable grow : nat -> nat -> nat.
Variable sel : nat -> list vec -> list vec.
Hypothesis Hsel : forall k vs, exists rest, Permutation (sel k vs ++ rest) vs.

Lemma inv_clone : forall g i j g', inv g -> b <= i -> cloneMap ords i g = Ok (j, g') -> inv g' /\ b <= j.
Proof.
  intros g i j g' I L H. unfold cloneMap in H. apply bind_ok in H as (c & H1 & H). injection H as <- <-.
  apply (inv_newMap (tick g) c); [eapply inv_same; [| |exact I]; reflexivity|]. eapply clone_scoped; eauto. now apply I.
Qed.
Lemma inv_cloneGlobal : forall g i j g', inv g -> b <= i -> cloneGlobalMap ords i g = Ok (j, g') -> inv g' /\ b <= j.
Proof.
  intros g i j g' I L H. unfold cloneGlobalMap, cCloneGlobal in H. apply bind_ok in H as (c & H1 & H). apply bind_ok in H1 as (c1 & H1 & E). injection E as <-.
  injection H as <- <-. apply (inv_newMap (tick g) (cClearLocal c1)); [eapply inv_same; [| |exact I]; reflexivity|]. apply clear_scoped.
  eapply clone_scoped; eauto. now apply I.
Qed.
Lemma inv_merge : forall g i k j g', inv g -> b <= i -> b <= k -> mergeMaps ords i k g = Ok (j, g') -> inv g' /\ b <= j.
Proof.
  intros g i k j g' I L L' H. unfold mergeMaps, cMerge in H. apply bind_ok in H as (c & H1 & H). apply bind_ok in H1 as (c1 & H1 & H2). injection H as <- <-.
  apply (inv_newMap (tick (tick g)) c); [eapply inv_same; [| |exact I]; reflexivity|].
  eapply update_scoped; [apply Hords| |apply (iv_new _ I k L')|exact H2]. eapply clone_scoped; [apply Hords| |exact H1]. now apply I.
Qed.
Lemma inv_create : forall g i f v u g', inv g -> b <= i -> inScope (rscope f) -> lookupOrCreate i f v g = Ok (u, g') -> inv g'.
Proof.
  intros g i f v u g' I L S H. unfold lookupOrCreate in H. apply bind_ok in H as ([u' c] & H1 & H). injection H as <- <-.
  apply inv_put; auto. eapply create_scoped; eauto. now apply I.
Qed.
Lemma inv_vector : forall bs g, inv g -> inv (snd (vectorOf bs g)) /\ b <= vcons (fst (vectorOf bs g)).
Proof. intros bs g I. cbn. split; [eapply inv_same; [| |exact I]; reflexivity|apply I]. Qed.
Lemma append_same : forall a x g, maps (snd (appendS grow a x g)) = maps g /\ cur (snd (appendS grow a x g)) = cur g.
Proof. intros. unfold appendS. destruct (_ <=? _); auto. Qed.
Lemma read_same : forall n g, maps (snd (randRead n g)) = maps g /\ cur (snd (randRead n g)) = cur g.
Proof.
  induction n as [|n IH]; intros g; cbn [randRead]; auto. unfold Intn, draw. specialize (IH (setRnd (mkRng (draws (rnd g)) (S (rpos (rnd g)))) g)).
  destruct (randRead n _) as [bs g2]. exact IH.
Qed.
Lemma letters_same : forall n g, maps (snd (randLetters n g)) = maps g /\ cur (snd (randLetters n g)) = cur g.
Proof.
  induction n as [|n IH]; intros g; cbn [randLetters]; auto. unfold Intn, draw. specialize (IH (setRnd (mkRng (draws (rnd g)) (S (rpos (rnd g)))) g)).
  destruct (randLetters n _) as [bs g2]. exact IH.
Qed.
Lemma select_post : forall vs g, inv g -> Forall (fun v => b <= vcons v) vs -> post (select sel vs g).
Proof.
  intros vs g I F. unfold select. split; cbn; [eapply inv_same; [| |exact I]; reflexivity|].
  rewrite Forall_forall in *. intros v J. apply F. destruct (Hsel (calls g) vs) as (rest & P). eapply Permutation_in; [exact P|]. apply in_or_app. auto.
Qed.

Lemma crossOne_safe : forall u w g x, b <= vcons u -> Forall (fun v => b <= vcons v) w -> inv g -> crossOne grow ords u w g = Ok x -> post x.
Proof.
  intros u w g x U F. revert g x. induction F as [|v w L F IH]; intros g x I H; cbn [crossOne] in H; [inversion H; subst; split; auto; constructor|].
  apply bind_ok in H as ([m g1] & H1 & H). destruct (inv_merge _ _ _ _ _ I U L H1) as (I1 & LM).
  pose proof (append_same (vdata u) (readS g1 (vdata v)) g1) as (A1 & A2). destruct (appendS grow _ _ g1) as [d g2]. cbn [snd] in A1, A2.
  apply bind_ok in H as ([rest g3] & H2 & H). injection H as <-. destruct (IH g2 _ (inv_same _ _ A1 A2 I1) H2) as (P1 & P2). split; auto. constructor; auto.
Qed.
Lemma cross_safe : forall u w g x, Forall (fun v => b <= vcons v) u -> Forall (fun v => b <= vcons v) w -> inv g -> cross grow ords u w g = Ok x -> post x.
Proof.
  intros u w g x F W. revert g x. induction F as [|v u L F IH]; intros g x I H; cbn [cross] in H; [inversion H; subst; split; auto; constructor|].
  apply bind_ok in H as ([p g1] & H1 & H). destruct (crossOne_safe _ _ _ _ L W I H1) as (I1 & F1).
  apply bind_ok in H as ([q g2] & H2 & H). injection H as <-. destruct (IH g1 _ I1 H2) as (I2 & F2). split; auto. apply Forall_app; auto.
Qed.
Lemma array_safe : forall elem n v g x, safe elem -> Forall (fun v => b <= vcons v) v -> inv g -> arrayLoop grow ords sel elem n v g = Ok x -> post x.
Proof.
  intros elem n v g x S. revert v g x. induction n as [|n IH]; intros v g x F I H; cbn [arrayLoop] in H; [inversion H; subst; split; auto|].
  apply bind_ok in H as ([w g1] & H1 & H). destruct (S g _ I H1) as (I1 & F1).
  apply bind_ok in H as ([v1 g2] & H2 & H). destruct (cross_safe _ _ _ _ F1 F I1 H2) as (I2 & F2).
  destruct (select_post v1 g2 I2 F2) as (I3 & F3). destruct (select sel v1 g2) as [v2 g3]. eapply IH; eauto.
Qed.
Lemma extend_safe : forall mem vs g x, safe mem -> Forall (fun v => b <= vcons v) vs -> inv g -> extend grow mem vs g = Ok x -> post x.
Proof.
  intros mem vs g x S F. revert g x. induction F as [|v vs L F IH]; intros g x I H; cbn [extend] in H; [inversion H; subst; split; auto; constructor|].
  apply bind_ok in H as ([mvs g1] & H1 & H). destruct (S _ _ (inv_cur g _ I L) H1) as (I1 & F1). cbn in I1, F1.
  assert (P : inv (snd (prepend grow v mvs g1)) /\ Forall (fun v => b <= vcons v) (fst (prepend grow v mvs g1))).
  { clear - I1 F1. revert g1 I1. induction F1 as [|w mvs Lw F1 IHm]; intros g1 I1; cbn [prepend]; [split; auto; constructor|].
    pose proof (append_same (vdata w) (readS g1 (vdata v)) g1) as (A1 & A2). destruct (appendS grow _ _ g1) as [d g2]. cbn [snd] in A1, A2.
    destruct (IHm g2 (inv_same _ _ A1 A2 I1)) as (P1 & P2). destruct (prepend grow v mvs g2) as [rest g3]. split; auto. constructor; auto. }
  destruct (prepend grow v mvs g1) as [e g2]. destruct P as (I2 & F2).
  apply bind_ok in H as ([rest g3] & H2 & H). injection H as <-. destruct (IH g2 _ I2 H2) as (I3 & F3). split; auto. apply Forall_app; auto.
Qed.
Lemma len_safe : forall f vs g x, inScope (rscope f) -> Forall (fun v => b <= vcons v) vs -> inv g -> lenconstrain ords f vs g = Ok x -> post x.
Proof.
  intros f vs g x S F. revert g x. induction F as [|v vs L F IH]; intros g x I H; cbn [lenconstrain] in H; [inversion H; subst; split; auto; constructor|].
  apply bind_ok in H as ([c g1] & H1 & H). destruct (inv_clone _ _ _ _ I L H1) as (I1 & LC).
  apply bind_ok in H as ([m g2] & H2 & H). pose proof (inv_create _ _ _ _ _ _ I1 LC S H2) as I2.
  apply bind_ok in H as ([rest g3] & H3 & H). injection H as <-. destruct (IH g2 _ I2 H3) as (I3 & F3). split; auto.
  destruct (Z.eqb m _); cbn; auto.
Qed.
Lemma random_inv : forall fuel s g x g', inv g -> randomIn fuel s g = Ok (x, g') -> inv g'.
Proof.
  intros fuel s g x g' I H. unfold randomIn in H. apply bind_ok in H as ([y rn] & H1 & H). injection H as <- <-. eapply inv_same; [| |exact I]; reflexivity.
Qed.
Lemma union_safe : forall fuel gen tag base bs g x, inScope (rscope tag) -> b <= base ->
  (forall br vs g x, In br bs -> Forall (fun v => b <= vcons v) vs -> inv g -> gen (bcase br) vs g = Ok x -> post x) ->
  inv g -> unionLoop ords fuel gen tag base bs g = Ok x -> post x.
Proof.
  intros fuel gen tag base bs. induction bs as [|br bs IH]; intros g x S L G I H; cbn [unionLoop] in H; [inversion H; subst; split; auto; constructor|].
  apply bind_ok in H as ([c g1] & H1 & H). destruct (inv_clone _ _ _ _ I L H1) as (I1 & LC).
  apply bind_ok in H as ([y g3] & H2 & H). pose proof (random_inv _ _ _ _ _ (inv_cur _ _ I1 LC) H2) as I3.
  apply bind_ok in H as ([z g4] & H3 & H). pose proof (inv_create _ _ _ _ _ _ I3 (iv_cur _ I3) S H3) as I4.
  unfold emptyVec in H. destruct (inv_vector [] g4 I4) as (I5 & L5). destruct (vectorOf [] g4) as [ev g5]. cbn in I5, L5.
  apply bind_ok in H as ([vs g6] & H4 & H). destruct (G br [ev] g5 _ (or_introl eq_refl) ltac:(constructor; auto) I5 H4) as (I6 & F6).
  apply bind_ok in H as ([rest g7] & H5 & H). injection H as <-.
  destruct (IH g6 _ S L ltac:(intros; eapply G; [right| | |]; eauto) I6 H5) as (I7 & F7). split; auto. apply Forall_app; auto.
Qed.

Variable r : resolver.
Lemma int_safe : forall fuel nm sz cst, safe (intType r fuel nm sz cst).
Proof.
  intros fuel nm sz cst g x I H. unfold intType in H. apply bind_ok in H as ([bs g1] & H1 & H).
  assert (I1 : inv g1).
  { destruct (cLookup _ _ _) as [y|]; [inversion H1; subst; auto|]. destruct cst as [l|].
    - apply bind_ok in H1 as (s & _ & H1). apply bind_ok in H1 as ([y g2] & H2 & H1). inversion H1; subst. eapply random_inv; eauto.
    - unfold randint in H1. pose proof (read_same (Z.to_nat (sz / 8)) g) as (A1 & A2). inversion H1 as [E]. rewrite E in A1, A2. eapply inv_same; [exact A1|exact A2|exact I]. }
  destruct (inv_vector bs g1 I1) as (I2 & L2). destruct (vectorOf bs g1) as [v g2]. injection H as <-. now apply one_post.
Qed.

Section Body.
Variable fuel : nat.
Variable callS : struct -> gst -> outcome (list vec * gst).
Variable strct : struct.
Variable ctxs : list string.
Hypothesis Hctxs : incl ctxs C.
Hypothesis HcallS : forall nm s, Struct r nm = Some s -> Extern s = false -> incl (scontexts s) C -> safe (callS s).

Lemma memb_in : forall x l, memb x l = true -> In x l.
Proof. intros x l H. apply existsb_exists in H as (y & I & E). apply String.eqb_eq in E. now subst. Qed.
Lemma ref_scope : forall k f, match refWidth r ctxs k f with Some _ => true | None => false end = true -> inScope (rscope f).
Proof.
  intros k f H. unfold refWidth in H. destruct (String.eqb (rscope f) "") eqn:E; [apply String.eqb_eq in E; now left|].
  unfold ctxField in H. destruct (memb (rscope f) ctxs) eqn:M; [|discriminate]. right. apply Hctxs. now apply memb_in.
Qed.
Lemma base_safe : forall nm t, checkBase r ctxs t = true -> safe (field grow ords sel r fuel callS nm t).
Proof.
  intros nm t K. destruct t as [sz cst| | | |n|b' i|b' l]; cbn [field]; try discriminate K.
  - apply int_safe.
  - apply int_safe.
  - intros g x I H. unfold emptyVec in H. destruct (inv_vector [] g I) as (I2 & L2). destruct (vectorOf [] g) as [v g2]. injection H as <-. now apply one_post.
  - intros g x I H. unfold randnulterm, randbtw, Intn, draw in H.
    set (g1 := setRnd _ g) in H. assert (I1 : inv g1) by (eapply inv_same; [| |exact I]; reflexivity).
    pose proof (letters_same (Z.to_nat (2 + draws (rnd g) (rpos (rnd g)) mod (20 - 2 + 1))) g1) as (A1 & A2).
    destruct (randLetters _ g1) as [s g2]. cbn [snd] in A1, A2. pose proof (inv_same _ _ A1 A2 I1) as I2.
    destruct (inv_vector (s ++ [0%Z]) g2 I2) as (I3 & L3). destruct (vectorOf _ g2) as [v g3]. injection H as <-. now apply one_post.
  - intros g x I H. apply bind_ok in H as (s & H1 & H). cbn [checkBase] in K. unfold StructNonExtern in H1.
    destruct (Struct r n) as [s'|] eqn:ES; [|discriminate K]. destruct (Extern s') eqn:EX; [discriminate H1|]. injection H1 as <-.
    apply andb_true_iff in K as (_ & K). rewrite forallb_forall in K. eapply HcallS; eauto. intros y J. apply Hctxs, memb_in, K, J.
Qed.
Lemma field_safe : forall k nm t, checkType r ctxs k t = true -> safe (field grow ords sel r fuel callS nm t).
Proof.
  intros k nm t K. destruct t as [sz cst| | | |n|b' i|b' l]; try (apply base_safe; exact K).
  - cbn [checkType] in K. apply andb_true_iff in K as (K & _). intros g x I H. cbn [field] in H. unfold emptyVec in H.
    destruct (inv_vector [] g I) as (I2 & L2). destruct (vectorOf [] g) as [v g2]. cbn in I2, L2. apply bind_ok in H as (n & _ & H).
    eapply array_safe; [apply (base_safe "" b' K)| | |exact H]; auto.
  - intros g x I H. cbn [field] in H. destruct l as [[f|i]|]; cbn [checkType] in K.
    + apply andb_true_iff in K as (K & R). unfold emptyVec in H.
      destruct (inv_vector [] g I) as (I2 & L2). destruct (vectorOf [] g) as [v g2]. cbn in I2, L2. unfold randbtw, Intn, draw in H.
      apply bind_ok in H as ([n g3] & H1 & H). cbn zeta in H. eapply array_safe; [apply (base_safe "" b' K)| | |exact H]; auto.
      refine (inv_create _ _ _ _ _ _ _ L2 (ref_scope k f R) H1). eapply inv_same; [| |exact I2]; reflexivity.
    + discriminate H.
    + unfold emptyVec in H. destruct (inv_vector [] g I) as (I2 & L2). destruct (vectorOf [] g) as [v g2]. cbn in I2, L2. unfold randbtw, Intn, draw in H.
      eapply array_safe; [apply (base_safe "" b' K)| | |exact H]; auto. eapply inv_same; [| |exact I2]; reflexivity.
Qed.

Lemma branches_in : forall tag cs bs br, NewBranches r strct tag cs = Ok bs -> In br bs -> In (bcase br) cs.
Proof. intros tag cs bs br H I. pose proof (branches_cases r strct tag cs bs H) as F. rewrite Forall_forall in F. now apply F. Qed.
Lemma member_safe : forall gen k m, checkMember r ctxs k m = true ->
  (forall u tag len cs c, m = MUnion u tag len cs -> In c cs ->
     forall vs g x, Forall (fun v => b <= vcons v) vs -> inv g -> gen c vs g = Ok x -> post x) ->
  safe (gmember grow ords sel r fuel callS strct gen m).
Proof.
  intros gen k m K G. destruct m as [nm t|u tag len cs| | |].
  - cbn [gmember]. eapply field_safe. exact K.
  - intros g x I H. cbn [gmember] in H. apply bind_ok in H as (bs & HB & H). cbn [checkMember] in K.
    apply andb_true_iff in K as (K & _). apply andb_true_iff in K as (KT & KL).
    destruct (unionOptions bs _) as [opts|] eqn:UO; [|injection H as <-; split; auto; constructor].
    assert (IO : forall br, In br opts -> In (bcase br) cs).
    { intros br J. unfold unionOptions in UO. destruct (cLookupRef _ tag) as [y|].
      - destruct (Lookup bs y) as [b1|] eqn:EL; [|discriminate]. injection UO as <-. destruct J as [<-|[]].
        eapply branches_in; [exact HB|]. apply find_some in EL. apply EL.
      - injection UO as <-. eapply branches_in; eauto. }
    apply bind_ok in H as ([base g1] & H1 & H). destruct (inv_clone _ _ _ _ I (iv_cur _ I) H1) as (I1 & LB).
    apply bind_ok in H as ([res g2] & H2 & H).
    destruct (union_safe _ _ _ _ _ _ _ (ref_scope k tag KT) LB ltac:(intros br vs g' y J; eapply (G _ _ _ _ (bcase br) eq_refl (IO br J))) I1 H2) as (I2 & F2).
    destruct len as [[f|i]|]; [|discriminate H|injection H as <-; split; auto].
    eapply len_safe; [apply (ref_scope k f KL)| | |exact H]; auto.
  - intros g x I H. cbn [gmember] in H. unfold emptyVec in H. destruct (inv_vector [] g I) as (I2 & L2). destruct (vectorOf [] g) as [v g2]. injection H as <-. now apply one_post.
  - intros g x I H. injection H as <-. split; auto. constructor.
  - intros g x I H. cbn [gmember] in H. unfold emptyVec in H. destruct (inv_vector [] g I) as (I2 & L2). destruct (vectorOf [] g) as [v g2]. cbn in I2, L2.
    unfold randbytes, randbtw, Intn, draw in H. set (g3 := setRnd _ g2) in H.
    assert (I3 : inv g3) by (eapply inv_same; [| |exact I2]; reflexivity).
    pose proof (read_same (Z.to_nat (1 + draws (rnd g2) (rpos (rnd g2)) mod (7 - 1 + 1))) g3) as (A1 & A2). destruct (randRead _ g3) as [s g4]. cbn [snd] in A1, A2.
    pose proof (inv_same _ _ A1 A2 I3) as I4. destruct (inv_vector s g4 I4) as (I5 & L5). destruct (vectorOf s g4) as [w g5]. injection H as <-. split; cbn; auto.
Qed.
Lemma members_safe : forall mem ms k vs g x, (forall k m, In m ms -> checkMember r ctxs k m = true -> safe (mem m)) ->
  checkMembers r ctxs k ms = true -> Forall (fun v => b <= vcons v) vs -> inv g -> membersLoop grow sel mem ms vs g = Ok x -> post x.
Proof.
  intros mem. induction ms as [|m ms IH]; intros k vs g x M K F I H; cbn [membersLoop] in H; [injection H as <-; split; auto|].
  cbn [checkMembers] in K. apply andb_true_iff in K as (K1 & K2).
  apply bind_ok in H as ([vs1 g1] & H1 & H). destruct (IH _ _ _ _ ltac:(intros; eapply M; [right|]; eauto) K2 F I H1) as (I1 & F1). cbn in I1, F1.
  apply bind_ok in H as ([ext g2] & H2 & H). destruct (extend_safe _ _ _ _ (M k m (or_introl eq_refl) K1) F1 I1 H2) as (I2 & F2). cbn in I2, F2.
  injection H as <-. now apply select_post.
Qed.
End Body.

Hypothesis Hstr : forall nm s, Struct r nm = Some s -> Extern s = false -> checkMembers r (scontexts s) [] (members_of s) = true.
Lemma fold_clear : forall vs g, inv g -> Forall (fun v => b <= vcons v) vs -> inv (fold_left (fun g v => clearMap (vcons v) g) vs g).
Proof.
  induction vs as [|v vs IH]; intros g I F; cbn [fold_left]; auto. inversion F; subst. apply IH; auto. unfold clearMap. apply inv_put; auto. apply clear_scoped. now apply I.
Qed.
Lemma struct_safe : forall gen s, (forall vs g x, Forall (fun v => b <= vcons v) vs -> inv g -> gen s (members_of s) vs g = Ok x -> post x) ->
  safe (structureWith ords gen s).
Proof.
  intros gen s G g x I H. unfold structureWith in H. apply bind_ok in H as ([c g1] & H1 & H). destruct (inv_cloneGlobal _ _ _ _ I (iv_cur _ I) H1) as (I1 & LC).
  destruct (newSlice [] g1) as [d g2] eqn:EN. assert (I2 : inv g2) by (injection EN as <- <-; eapply inv_same; [| |exact I1]; reflexivity).
  apply bind_ok in H as ([vs g3] & H2 & H). destruct (G [mkVec d c] g2 _ ltac:(constructor; auto) I2 H2) as (I3 & F3). cbn in I3, F3.
  injection H as <-. split; auto. cbn [fst snd]. apply fold_clear; auto. unfold clearMap. apply inv_put; [auto|apply I3|]. apply clear_scoped. apply I3. apply I3.
Qed.
Lemma gmembers_safe : forall n strct ctxs ms k vs g x, incl ctxs C -> checkMembers r ctxs k ms = true -> Forall (fun v => b <= vcons v) vs -> inv g ->
  gmembers grow ords sel r n strct ms vs g = Ok x -> post x.
Proof.
  induction n as [|n IH]; intros strct ctxs ms k vs g x IC K F I H; cbn [gmembers] in H; [discriminate|].
  eapply (members_safe ctxs); [|exact K|exact F|exact I|exact H]. intros k' m J KM.
  eapply (member_safe n _ strct ctxs IC); [|exact KM|].
  - intros nm s ES EX IS. apply struct_safe. intros vs' g' x'. eapply IH; [exact IS|]. eapply Hstr; eauto.
  - intros u tag len cs c -> JC vs' g' x' F' I'. cbn [checkMember] in KM. apply andb_true_iff in KM as (_ & KM). rewrite forallb_forall in KM.
    specialize (KM c JC). destruct c as [l ms']. apply andb_true_iff in KM as (_ & KM). eapply (IH _ ctxs _ k'); auto.
    cbn [ucase_members]. clear - KM. revert k' KM. induction ms' as [|m1 ms' IHm]; intros k' KM; cbn [checkMembers] in *; auto.
    apply andb_true_iff in KM as (A & B). apply andb_true_iff. split; auto.
Qed.
Theorem structure_safe : forall n s, checkMembers r (scontexts s) [] (members_of s) = true -> incl (scontexts s) C -> safe (structure grow ords sel r n s).
Proof. intros n s K IC. apply struct_safe. intros vs g x. eapply gmembers_safe; eauto. Qed.
End Scopes.

(** Clearing drops what is not about contexts. *)
Lemma clear_none : forall i g, ~ In "" (map fst (mapOf (clearMap i g) i)).
Proof.
  intros i g H. unfold clearMap in H. destruct (Nat.lt_ge_cases i (List.length (maps g))).
  - rewrite putMap_same in H by auto. apply adelete_key in H as (N & _). now apply N.
  - unfold mapOf at 1 in H. rewrite nth_overflow in H; [destruct H|]. rewrite putMap_len. lia.
Qed.
Lemma clear_keeps : forall i j g, ~ In "" (map fst (mapOf g i)) -> ~ In "" (map fst (mapOf (clearMap j g) i)).
Proof.
  intros i j g N. destruct (Nat.eq_dec i j) as [->|D]; [apply clear_none|]. unfold clearMap. now rewrite putMap_other.
Qed.
Lemma fold_none : forall vs g i, ~ In "" (map fst (mapOf g i)) -> ~ In "" (map fst (mapOf (fold_left (fun g v => clearMap (vcons v) g) vs g) i)).
Proof. induction vs as [|v vs IH]; intros g i N; cbn [fold_left]; auto. apply IH. now apply clear_keeps. Qed.
Lemma fold_cleared : forall vs g v, In v vs -> ~ In "" (map fst (mapOf (fold_left (fun g v => clearMap (vcons v) g) vs g) (vcons v))).
Proof.
  induction vs as [|w vs IH]; intros g v []; cbn [fold_left]; [subst; apply fold_none, clear_none|auto].
Qed.

Section Suites.
Variable ords : nat -> uorders.
Hypothesis Hords : forall n, goodOrders (ords n).
Variable grow : nat -> nat -> nat.
Variable sel : nat -> list vec -> list vec.
Hypothesis Hsel : forall k vs, exists rest, Permutation (sel k vs ++ rest) vs.
Variable r : resolver.
Hypothesis Hstr : forall nm s, Struct r nm = Some s -> Extern s = false -> checkMembers r (scontexts s) [] (members_of s) = true.
Lemma Hsel' : forall k vs v, In v (sel k vs) -> In v vs.
Proof. intros k vs v I. destruct (Hsel k vs) as (rest & P). eapply Permutation_in; [exact P|]. apply in_or_app. auto. Qed.

Lemma suites_scoped : forall n ss g l g', wfg g -> (forall s, In s ss -> Extern s = false -> checkMembers r (scontexts s) [] (members_of s) = true) ->
  suites grow ords sel r n ss g = Ok (l, g') ->
  List.length (maps g) <= List.length (maps g') /\ (forall i, i < List.length (maps g) -> mapOf g' i = mapOf g i) /\
  forall nm vs v, In (nm, vs) l -> In v vs -> exists s, In s ss /\ Extern s = false /\ sname s = nm /\ forall x, In x (map fst (mapOf g' (vcons v))) -> In x (scontexts s).
Proof.
  intros n. induction ss as [|s ss IH]; intros g l g' W K H; cbn [suites] in H.
  - injection H as <- <-. repeat split; auto. intros nm vs v [].
  - destruct (Extern s) eqn:EX.
    + destruct (IH _ _ _ W (fun s' J => K s' (or_intror J)) H) as (A & B & D). repeat split; auto. intros nm vs v I J.
      destruct (D nm vs v I J) as (s' & I' & R). exists s'. split; [now right|exact R].
    + destruct (newMap NewConstraints g) as [c g1] eqn:EN. injection EN as <- <-. apply bind_ok in H as ([vs g2] & H1 & H). apply bind_ok in H as ([rest g3] & H2 & H). injection H as <- <-.
      set (b := List.length (maps g)) in *.
      assert (I1 : inv (scontexts s) b (mapOf g) (setCur b (mkG (maps g ++ [NewConstraints]) (cur g) (bufs g) (rnd g) (calls g)))).
      { constructor; cbn.
        - rewrite app_length. unfold b. lia.
        - auto.
        - intros i L. unfold mapOf. cbn. now rewrite app_nth1.
        - intros i L. unfold mapOf. cbn. rewrite app_nth2 by exact L. destruct (i - _) as [|[|]]; cbn; apply nil_scoped. }
      assert (T : TvTidy.tidy (setCur b (mkG (maps g ++ [NewConstraints]) (cur g) (bufs g) (rnd g) (calls g))) []).
      { split; [|split; [|constructor]].
        - unfold wfg. cbn. apply Forall_app. split; auto. constructor; [apply goMap_new|constructor].
        - cbn. unfold TvSucceed.len. cbn. rewrite app_length. cbn. unfold b. lia. }
      assert (O : TvTidy.out (setCur b (mkG (maps g ++ [NewConstraints]) (cur g) (bufs g) (rnd g) (calls g))) (structureWith ords (gmembers grow ords sel r n) s (setCur b (mkG (maps g ++ [NewConstraints]) (cur g) (bufs g) (rnd g) (calls g))))).
      { apply (TvTidy.structure_out grow ords Hords sel Hsel'); [|exact T]. intros ws h Th. eapply TvTidy.gmembers_out; [exact Hords|exact Hsel'|exact Th]. }
      unfold structure in H1. rewrite H1 in O. destruct O as (_ & W2 & _ & F2).
      pose proof (structure_safe (scontexts s) b (mapOf g) ords Hords grow sel Hsel r Hstr n s (K s (or_introl eq_refl) EX) (incl_refl _) _ _ I1 H1) as (J & JF).
      cbn [fst snd] in *. destruct (IH _ _ _ W2 (fun s' J => K s' (or_intror J)) H2) as (A & B & D). pose proof (iv_len _ _ _ _ J) as J1. split; [lia|]. split.
      * intros i L. rewrite B by lia. now apply (iv_old _ _ _ _ J).
      * intros nm us v [E|I] JV.
        -- injection E as <- <-. exists s. split; [now left|]. split; auto. split; auto. intros x X.
           rewrite Forall_forall in F2, JF. rewrite B in X by exact (F2 v JV).
           destruct (iv_new _ _ _ _ J (vcons v) (JF v JV) x X) as [->|Y]; auto.
           exfalso. unfold structureWith in H1. apply bind_ok in H1 as ([c h1] & _ & H1). destruct (newSlice [] h1) as [d h2].
           apply bind_ok in H1 as ([ws h3] & _ & H1). injection H1 as <- <-. exact (fold_cleared ws _ v JV X).
        -- destruct (D nm us v I JV) as (s' & I' & R). exists s'. split; [now right|exact R].
Qed.
End Suites.

Theorem vectors_scoped : forall camel os fs r p, package camel os fs r p ->
  forall grow ords sel n rn c, (forall k, goodOrders (ords k)) -> (forall k vs, exists rest, Permutation (sel k vs ++ rest) vs) ->
  forall os', all_valid os' -> GenerateFiles grow ords sel os' n fs rn = Ok c ->
  forall u d k, In u c -> In (d, k) (svectors u) -> exists s, defines fs s /\ sname s = stype u /\ forall x, In x (map fst k) -> In x (scontexts s).
Proof.
  intros camel os fs r p PK grow ords sel n rn c HO HS os' V G u d k Iu Iv.
  pose proof (vectors_same grow ords ords sel os' os n fs rn HO HO V (pk_orders _ _ _ _ _ PK)) as SM. rewrite G in SM.
  destruct (GenerateFiles grow ords sel os n fs rn) as [c'|e|m|] eqn:G'; cbn in SM; try contradiction.
  assert (exists u' k', In u' c' /\ stype u' = stype u /\ In (d, k') (svectors u') /\ sameC k k') as (u' & k' & U' & T' & D' & S').
  { destruct (forall2_in_l _ _ _ _ SM Iu) as (u' & U' & T & F). destruct (forall2_in_l _ _ _ _ F Iv) as ([d' k'] & D' & E & S).
    cbn [fst snd] in E, S. subst d'. exists u', k'. auto. }
  unfold GenerateFiles in G'. rewrite (pk_resolved _ _ _ _ _ PK) in G'. cbn [bind] in G'. apply bind_ok in G' as ([ss g] & HSU & G'). injection G' as <-.
  apply in_map_iff in U' as ([nm vs] & <- & IS). cbn [stype svectors fst snd] in *. apply in_map_iff in D' as (v & EV & JV). unfold seen in EV. injection EV as _ EK.
  assert (CK : forall s, In s (definedStructs fs) -> checkMembers r (scontexts s) [] (members_of s) = true).
  { intros s J. eapply checked_members. eapply (pk_check camel os fs r p PK). exact J. }
  assert (CS : forall s, In s (flat_map fstructs fs) -> Extern s = false -> checkMembers r (scontexts s) [] (members_of s) = true).
  { intros s J X. apply CK. unfold definedStructs. apply filter_In. rewrite X. auto. }
  destruct (suites_scoped ords HO grow sel HS r (fun nm s E X => CK s (proj2 (pk_res camel os fs r p PK nm s E X))) n _ (mkG [] O [] rn O) _ _ (Forall_nil _) CS HSU) as (_ & _ & D).
  destruct (D nm vs v IS JV) as (s & J & X & N & SC). exists s. split; [apply defines_in; unfold definedStructs; apply filter_In; rewrite X; auto|]. split; [congruence|].
  intros x I. apply SC. rewrite EK. destruct S' as (GK & GK' & NE & NE' & SL). apply in_map_iff in I as ([x' us] & <- & I). cbn [fst].
  destruct us as [|[f z] us]; [exfalso; now apply (NE _ _ I)|].
  assert (L : cLookup k x' f = Some z).
  { unfold cLookup. destruct GK as (ND & _). rewrite (proj2 (alookup_nodup x' _ k ND) I). cbn. now rewrite String.eqb_refl. }
  rewrite SL in L. unfold cLookup in L. destruct (alookup x' k') as [us'|] eqn:E; [|discriminate]. apply TvConstraints.alookup_in in E. apply (in_map fst) in E. exact E.
Qed.
