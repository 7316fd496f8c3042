(** Facts about the test vector generator: suites, length constraints,
    constraint maps in the heap, selectors. *)
From Coq Require Import ZArith String List Bool Lia Arith Permutation.
From Verif Require Import Base Ast IntervalsModel InspectModel InspectProofs GenModel TvModel TvConstraints TvHeap.
Import ListNotations.
Open Scope string_scope.
Open Scope list_scope.
Open Scope nat_scope.

(* ---------- suites ---------- *)

Lemma suites_names : forall grow ords sel r n ss g l g', suites grow ords sel r n ss g = Ok (l, g') ->
  map fst l = map sname (filter (fun s => negb (Extern s)) ss).
Proof.
  intros grow ords sel r n. induction ss as [|s ss IH]; intros g l g' H; cbn [suites] in H; [inversion H; reflexivity|].
  cbn [filter]. destruct (Extern s); cbn [negb]; [eauto|]. destruct (newMap NewConstraints g) as [c g1].
  destruct (structure grow ords sel r n s (setCur c g1)) as [[vs g2]| | |]; try discriminate. cbn in H.
  destruct (suites grow ords sel r n ss g2) as [[rest g3]| | |] eqn:E; try discriminate. cbn in H. inversion H; subst.
  cbn. f_equal. eauto.
Qed.
Theorem files_suites : forall grow ords sel os n fs rn c, GenerateFiles grow ords sel os n fs rn = Ok c ->
  map stype c = map sname (definedStructs fs).
Proof.
  intros. unfold GenerateFiles in H. destruct (NewResolverFiles os fs) as [r| | |]; try discriminate. cbn in H.
  destruct (suites _ _ _ _ _ _ _) as [[ss g]| | |] eqn:E; try discriminate. cbn in H. inversion H; subst.
  rewrite map_map. cbn. change (map (fun x : string * list vec => stype (mkSuite (fst x) (map (seen g) (snd x)))) ss) with (map (@fst string (list vec)) ss).
  eapply suites_names; eauto.
Qed.

(* ---------- constraint maps in the heap ---------- *)

(** Every map of the heap is a Go map. *)
Definition wfg (g : gst) : Prop := Forall goMap (maps g).
Lemma wfg_map : forall g i, wfg g -> goMap (mapOf g i).
Proof.
  intros g i W. unfold mapOf. destruct (Nat.lt_ge_cases i (List.length (maps g))).
  - unfold wfg in W. rewrite Forall_forall in W. apply W, nth_In. auto.
  - rewrite nth_overflow by lia. apply goMap_new.
Qed.
(** The maps of [g] are still there, unchanged, and [news] were added. *)
Definition addsMaps (g g' : gst) (news : list cons) : Prop :=
  maps g' = maps g ++ news /\ cur g' = cur g /\ bufs g' = bufs g /\ rnd g' = rnd g.

Lemma newMap_spec : forall c g i g', newMap c g = (i, g') -> i = List.length (maps g) /\ addsMaps g g' [c] /\ mapOf g' i = c.
Proof.
  unfold newMap. intros. inversion H; subst. split; auto. split; [unfold addsMaps; cbn; auto|]. unfold mapOf. cbn.
  rewrite app_nth2 by lia. rewrite Nat.sub_diag. reflexivity.
Qed.
Lemma mapOf_app : forall g g' news i, maps g' = maps g ++ news -> i < List.length (maps g) -> mapOf g' i = mapOf g i.
Proof. intros. unfold mapOf. rewrite H. now apply app_nth1. Qed.

Section Ords.
Variable ords : nat -> uorders.
Hypothesis Hords : forall n, goodOrders (ords n).

Lemma cloneMap_spec : forall i g, wfg g -> exists j g' c, cloneMap ords i g = Ok (j, g') /\ j = List.length (maps g) /\
  addsMaps g g' [c] /\ mapOf g' j = c /\ wfg g' /\ forall s k, cLookup c s k = cLookup (mapOf g i) s k.
Proof.
  intros i g W. destruct (clone_spec (ords (calls g)) (mapOf g i) (Hords _) (wfg_map g i W)) as (c & E & G & N & L).
  unfold cloneMap. rewrite E. cbn [bind]. destruct (newMap c (tick g)) as [j g'] eqn:EN. destruct (newMap_spec _ _ _ _ EN) as (-> & A & M).
  exists (List.length (maps (tick g))), g', c. split; auto. split; auto. split; [exact A|]. split; auto. split; auto.
  destruct A as (A & _). unfold wfg. rewrite A. cbn. apply Forall_app. split; auto.
Qed.
Lemma cloneGlobalMap_spec : forall i g, wfg g -> exists j g' c, cloneGlobalMap ords i g = Ok (j, g') /\ j = List.length (maps g) /\
  addsMaps g g' [c] /\ mapOf g' j = c /\ wfg g' /\ forall s k, cLookup c s k = if String.eqb s "" then None else cLookup (mapOf g i) s k.
Proof.
  intros i g W. destruct (clone_spec (ords (calls g)) (mapOf g i) (Hords _) (wfg_map g i W)) as (c & E & G & N & L).
  unfold cloneGlobalMap, cCloneGlobal. rewrite E. cbn [bind].
  destruct (newMap (cClearLocal c) (tick g)) as [j g'] eqn:EN. destruct (newMap_spec _ _ _ _ EN) as (-> & A & M).
  exists (List.length (maps (tick g))), g', (cClearLocal c). split; auto. split; auto. split; [exact A|]. split; auto.
  split; [destruct A as (A & _); unfold wfg; rewrite A; cbn; apply Forall_app; split; auto; constructor; auto; now apply clearLocal_goMap|].
  intros. rewrite clearLocal_lookup. destruct (String.eqb s ""); auto.
Qed.
Lemma mergeMaps_spec : forall i j g, wfg g ->
  (compatible (mapOf g i) (mapOf g j) -> exists m g' c, mergeMaps ords i j g = Ok (m, g') /\ m = List.length (maps g) /\
     addsMaps g g' [c] /\ mapOf g' m = c /\ wfg g' /\
     forall s k, cLookup c s k = match cLookup (mapOf g i) s k with Some v => Some v | None => cLookup (mapOf g j) s k end) /\
  (~ compatible (mapOf g i) (mapOf g j) -> mergeMaps ords i j g = Err "conflicting constraint").
Proof.
  intros i j g W. destruct (merge_spec (ords (calls g)) (ords (S (calls g))) _ _ (Hords _) (Hords _) (wfg_map g i W) (wfg_map g j W)) as (A & B & C).
  unfold mergeMaps. split.
  - intros CP. apply A in CP. destruct CP as (c & E). rewrite E. cbn [bind]. destruct (C c E) as (G & N & L).
    destruct (newMap c (tick (tick g))) as [m g'] eqn:EN. destruct (newMap_spec _ _ _ _ EN) as (-> & AM & M).
    exists (List.length (maps (tick (tick g)))), g', c. split; auto. split; auto. split; [exact AM|]. split; auto. split; auto.
    destruct AM as (AM & _). unfold wfg. rewrite AM. apply Forall_app. split; auto.
  - intros N. rewrite B; auto.
Qed.
Lemma mergeMaps_ok : forall i j g m g', wfg g -> mergeMaps ords i j g = Ok (m, g') -> m = List.length (maps g) /\
  exists c, addsMaps g g' [c] /\ mapOf g' m = c /\ wfg g' /\
     forall s k, cLookup c s k = match cLookup (mapOf g i) s k with Some v => Some v | None => cLookup (mapOf g j) s k end.
Proof.
  intros i j g m g' W H. unfold mergeMaps in H. destruct (cMerge _ _ _ _) as [c| | |] eqn:E; try discriminate. cbn in H. inversion H; subst; clear H.
  destruct (merge_spec (ords (calls g)) (ords (S (calls g))) _ _ (Hords _) (Hords _) (wfg_map g i W) (wfg_map g j W)) as (_ & _ & C).
  destruct (C c E) as (G & N & L). destruct (newMap c (tick (tick g))) as [m g'] eqn:EN. inversion EN; subst; clear EN.
  destruct (newMap_spec c (tick (tick g)) _ _ eq_refl) as (_ & AM & M). split; auto. exists c. split; [exact AM|]. split; auto. split; auto.
  unfold wfg. cbn. apply Forall_app. split; auto.
Qed.

(** [LookupOrCreate] changes one map, by at most one new entry. *)
Lemma locreate_spec : forall i f v g, wfg g -> i < List.length (maps g) -> exists u c,
  lookupOrCreate i f v g = Ok (u, putMap i c g) /\ goMap c /\ cLookupRef c f = Some u /\
  (cLookupRef (mapOf g i) f = Some u \/ cLookupRef (mapOf g i) f = None /\ u = v) /\
  (forall s k, (s, k) <> (rscope f, rname f) -> cLookup c s k = cLookup (mapOf g i) s k).
Proof.
  intros i f v g W I. destruct (lookupOrCreate_spec (mapOf g i) (rscope f) (rname f) v (wfg_map g i W)) as (u & c & E & G & L & P & O & N).
  unfold lookupOrCreate. rewrite E. cbn [bind]. exists u, c. repeat split; auto; apply G.
Qed.
Lemma putMap_same : forall i c g, i < List.length (maps g) -> mapOf (putMap i c g) i = c.
Proof. intros. unfold mapOf, putMap. cbn [maps]. apply setNth_same. auto. Qed.
Lemma putMap_other : forall i j c g, j <> i -> mapOf (putMap i c g) j = mapOf g j.
Proof. intros. unfold mapOf, putMap. cbn [maps]. apply setNth_other. auto. Qed.
Lemma putMap_len : forall i c g, List.length (maps (putMap i c g)) = List.length (maps g).
Proof. intros. unfold putMap. cbn [maps]. apply setNth_length. Qed.
Lemma putMap_wfg : forall i c g, wfg g -> goMap c -> wfg (putMap i c g).
Proof.
  intros i c g W G. unfold wfg, putMap, setNth in *. cbn [maps]. rewrite <- (firstn_skipn i (maps g)) in W. apply Forall_app in W as (A & B).
  apply Forall_app. split; auto. destruct (skipn i (maps g)); auto. inversion B; subst. constructor; auto.
Qed.

(* ---------- lenconstrain ---------- *)

Definition lenFits (g : gst) (f : idref) (v : vec) : bool :=
  match cLookupRef (mapOf g (vcons v)) f with None => true | Some m => Z.eqb m (Z.of_nat (slen (vdata v))) end.

(** Exactly the vectors whose length is free or right are kept, in order, with
    the same bytes; each gets its own map, equal to the old one except that the
    length is recorded. *)
Lemma lenconstrain_spec : forall f vs g, wfg g -> Forall (fun v => vcons v < List.length (maps g)) vs ->
  exists res g', lenconstrain ords f vs g = Ok (res, g') /\
    (exists news, maps g' = maps g ++ news) /\ cur g' = cur g /\ bufs g' = bufs g /\ rnd g' = rnd g /\ wfg g' /\
    Forall2 (fun v w => vdata w = vdata v /\ List.length (maps g) <= vcons w < List.length (maps g') /\
        cLookupRef (mapOf g' (vcons w)) f = Some (Z.of_nat (slen (vdata v))) /\
        forall s k, (s, k) <> (rscope f, rname f) -> cLookup (mapOf g' (vcons w)) s k = cLookup (mapOf g (vcons v)) s k)
      (filter (lenFits g f) vs) res.
Proof.
  intros f. induction vs as [|v vs IH]; intros g W F.
  - exists [], g. cbn. repeat split; auto. exists []. now rewrite app_nil_r.
  - inversion F as [|? ? F1 F2]; subst. cbn [lenconstrain].
    destruct (cloneMap_spec (vcons v) g W) as (j & g1 & c & E1 & -> & (A1 & A2 & A3 & A4) & M1 & W1 & L1). rewrite E1. cbn [bind].
    assert (J : List.length (maps g) < List.length (maps g1)) by (rewrite A1, app_length; cbn; lia).
    destruct (locreate_spec (List.length (maps g)) f (Z.of_nat (slen (vdata v))) g1 W1 J) as (u & c2 & E2 & G2 & LK & PR & OT). rewrite E2. cbn [bind].
    set (g2 := putMap (List.length (maps g)) c2 g1) in *.
    assert (W2 : wfg g2) by (apply putMap_wfg; auto).
    assert (LM2 : List.length (maps g2) = S (List.length (maps g))) by (unfold g2; rewrite putMap_len, A1, app_length; cbn; lia).
    destruct (IH g2 W2) as (rest & g3 & E3 & (news & N3) & C3 & B3 & R3 & W3 & F3).
    { eapply Forall_impl; [|exact F2]. intros a Ha; cbv beta in *; lia. }
    rewrite E3. cbn [bind].
    assert (OLD : forall i, i < List.length (maps g) -> mapOf g2 i = mapOf g i).
    { intros i I. unfold g2. rewrite putMap_other by lia. eapply mapOf_app; eauto. }
    assert (PRE : exists nw, maps g2 = maps g ++ nw).
    { unfold g2, putMap, setNth. cbn [maps]. rewrite A1. exists [c2]. rewrite firstn_app, firstn_all, Nat.sub_diag. cbn. rewrite app_nil_r.
      rewrite skipn_app, skipn_all, Nat.sub_diag. reflexivity. }
    destruct PRE as (nw & PRE).
    exists ((if Z.eqb u (Z.of_nat (slen (vdata v))) then [mkVec (vdata v) (List.length (maps g))] else []) ++ rest), g3.
    split; auto. split; [exists (nw ++ news); rewrite N3, PRE, app_assoc; auto|]. split; [rewrite C3; exact A2|]. split; [rewrite B3; exact A3|]. split; [rewrite R3; exact A4|].
    split; auto.
    assert (FEQ : filter (lenFits g2 f) vs = filter (lenFits g f) vs).
    { apply filter_ext_in. intros a I. rewrite Forall_forall in F2. unfold lenFits. rewrite OLD; auto. }
    rewrite FEQ in F3. cbn [filter].
    assert (LF : lenFits g f v = Z.eqb u (Z.of_nat (slen (vdata v)))).
    { unfold lenFits. unfold cLookupRef in *. rewrite M1 in PR. destruct PR as [PR|(PR & ->)]; rewrite L1 in PR; rewrite PR; auto.
      now rewrite Z.eqb_refl. }
    rewrite LF.
    assert (F3' : Forall2 (fun v w => vdata w = vdata v /\ List.length (maps g) <= vcons w < List.length (maps g3) /\
        cLookupRef (mapOf g3 (vcons w)) f = Some (Z.of_nat (slen (vdata v))) /\
        forall s k, (s, k) <> (rscope f, rname f) -> cLookup (mapOf g3 (vcons w)) s k = cLookup (mapOf g (vcons v)) s k)
      (filter (lenFits g f) vs) rest).
    { assert (FV : Forall (fun v => vcons v < List.length (maps g)) (filter (lenFits g f) vs)).
      { apply Forall_forall. intros x I. apply filter_In in I. rewrite Forall_forall in F2. apply F2, I. }
      clear - F3 OLD LM2 FV. induction F3; constructor.
      - inversion FV; subst. destruct H as (a & b & c0 & d). split; auto. split; [lia|]. split; auto. intros. rewrite d; auto. rewrite OLD; auto.
      - inversion FV; subst. auto. }
    destruct (Z.eqb_spec u (Z.of_nat (slen (vdata v)))) as [->|NE]; cbn [app]; [|exact F3'].
    constructor; [|exact F3']. cbn [vdata vcons]. split; auto. split; [rewrite N3, app_length; lia|].
    assert (M3 : mapOf g3 (List.length (maps g)) = c2).
    { rewrite (mapOf_app g2 g3 news) by (auto; lia). unfold g2. apply putMap_same. lia. }
    rewrite M3. split; auto. intros s k NK. rewrite OT by auto. rewrite M1. apply L1.
Qed.
End Ords.

(* ---------- selectors ---------- *)

Theorem sample_spec : forall {A} n pi (d : A) vs, (0 <= n)%Z -> Permutation pi (seq 0 (List.length vs)) ->
  exists ps, RandomSample n pi d vs = Ok (map (fun i => nth i vs d) ps) /\
    NoDup ps /\ Forall (fun i => i < List.length vs) ps /\ Z.of_nat (List.length ps) = Z.min n (Z.of_nat (List.length vs)) /\
    ((Z.of_nat (List.length vs) <= n)%Z -> ps = seq 0 (List.length vs)).
Proof.
  intros A n pi d vs N P. unfold RandomSample. destruct (Z.leb_spec (Z.of_nat (List.length vs)) n) as [L|L].
  - exists (seq 0 (List.length vs)). split.
    + f_equal. clear. induction vs as [|v vs IH]; cbn; auto. f_equal. rewrite <- seq_shift, map_map. exact IH.
    + split; [apply seq_NoDup|]. split; [apply Forall_forall; intros i I; apply in_seq in I; lia|]. rewrite seq_length. split; [lia|auto].
  - destruct (Z.ltb_spec n 0); [lia|]. exists (firstn (Z.to_nat n) pi). split; auto.
    assert (ND : NoDup pi) by (eapply Permutation_NoDup; [apply Permutation_sym; eauto|apply seq_NoDup]).
    split; [rewrite <- (firstn_skipn (Z.to_nat n) pi) in ND; clear - ND; induction (firstn (Z.to_nat n) pi); cbn in *; [constructor|inversion ND; subst; constructor; auto; intros I; apply H1, in_or_app; auto]|].
    split.
    + apply Forall_forall. intros i I. assert (J : In i pi) by (rewrite <- (firstn_skipn (Z.to_nat n) pi); apply in_or_app; auto).
      eapply Permutation_in in J; [|exact P]. apply in_seq in J. lia.
    + rewrite firstn_length, (Permutation_length P), seq_length. split; lia.
Qed.
Theorem sample_all : forall {A} n pi (d : A) vs, (Z.of_nat (List.length vs) <= n)%Z -> RandomSample n pi d vs = Ok vs.
Proof. intros. unfold RandomSample. destruct (Z.leb_spec (Z.of_nat (List.length vs)) n); auto; lia. Qed.

Theorem create_other : forall i j f v g u g', i < List.length (maps g) -> i <> j ->
  lookupOrCreate i f v g = Ok (u, g') -> mapOf g' j = mapOf g j.
Proof.
  intros i j f v g u g' I N H. unfold lookupOrCreate in H. destruct (cLookupOrCreate _ _ _ _) as [[x c]| | |]; try discriminate. cbn in H.
  inversion H; subst. apply putMap_other. auto.
Qed.
