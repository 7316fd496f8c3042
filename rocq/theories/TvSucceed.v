(** Test vector generation reports no error: when everything referred to is
    defined, no length is "leftover" and the structs used as array elements refer
    to no context. *)
From Coq Require Import ZArith String List Bool Lia Arith Permutation.
From Verif Require Import Base Ast IntervalsModel IntervalsSpec IntervalsProofs RandomProofs InspectModel InspectSpec
  InspectProofs BranchProofs GenModel TvModel TvConstraints TvHeap TvFacts TvFinish.
Import ListNotations.
Open Scope string_scope.
Open Scope list_scope.
Open Scope nat_scope.

(* ---------- the condition on the files ---------- *)

Section Class.
Variable r : resolver.
(** Structs that refer to no context, directly or through their fields. *)
Variable q : string -> bool.
Let cv := Constant r.

(** A list of integers that [Intervals] accepts. *)
Definition listable (l : intlist) : Prop := good_list cv l /\ ~ list_overlaps cv l.

(** A struct that is defined; [b]: that refers to no context. *)
Definition knownStruct (b : bool) (n : string) : Prop := (exists s, StructNonExtern r n = Ok s) /\ (b = true -> q n = true).
(** A local reference, if [b]. *)
Definition refIn (b : bool) (f : idref) : Prop := b = true -> rscope f = "".
Definition lenIn (b : bool) (len : option lconstraint) : Prop :=
  match len with Some (LRef f) => refIn b f | Some (LLeftover _) => False | None => True end.

Definition sucElem (t : type) : Prop :=
  match t with
  | TInt _ (Some l) => listable l
  | TStruct n => knownStruct true n
  | TFixed _ _ | TVar _ _ => False
  | _ => True
  end.
Definition sucType (b : bool) (t : type) : Prop :=
  match t with
  | TInt _ (Some l) => listable l
  | TStruct n => knownStruct b n
  | TFixed e i => sucElem e /\ exists k, Integer r i = Ok k
  | TVar e len => sucElem e /\ lenIn b len
  | _ => True
  end.
Definition sucCases (strct : struct) (tag : idref) (cs : list ucase) : Prop :=
  (exists sz cst, IntType r tag strct = Ok (sz, cst) /\ (0 <= sz <= 64)%Z) /\
  forall c l, In c cs -> ucase_list c = Some l -> l <> [] /\ listable l.

Fixpoint sucMember (b : bool) (strct : struct) (m : member) : Prop :=
  match m with
  | MField _ t => sucType b t
  | MUnion _ tag len cs =>
      sucCases strct tag cs /\ refIn b tag /\ lenIn b len /\
      (fix allc (cs : list ucase) : Prop :=
         match cs with
         | [] => True
         | UCase _ ms :: cs' =>
             (fix allm (ms : list member) : Prop :=
                match ms with [] => True | m' :: ms' => sucMember b strct m' /\ allm ms' end) ms /\ allc cs'
         end) cs
  | _ => True
  end.
Definition sucStruct (b : bool) (s : struct) : Prop := forall m, In m (members_of s) -> sucMember b s m.

Lemma sucMember_union : forall b s n tag len cs, sucMember b s (MUnion n tag len cs) ->
  sucCases s tag cs /\ refIn b tag /\ lenIn b len /\ forall c, In c cs -> forall m, In m (ucase_members c) -> sucMember b s m.
Proof.
  intros b s n tag len cs (A & A1 & A2 & B). split; auto. split; auto. split; auto. clear A A1 A2. induction cs as [|[o ms] cs IH]; intros c I; [destruct I|].
  destruct B as (B & C). destruct I as [<-|I]; [|now apply IH]. cbn [ucase_members]. clear -B.
  induction ms as [|m ms IH]; intros m' I; [destruct I|]. destruct B as (B & C). destruct I as [<-|I]; auto.
Qed.
End Class.

(** All structs of a list of files, those in [q] referring to no context. *)
Definition sucFiles (r : resolver) (q : string -> bool) (fs : list file) : Prop :=
  forall f s, In f fs -> In s (fstructs f) -> sucStruct r q (q (sname s)) s.

(* ---------- the state ---------- *)

Section Succeed.
Variable grow : nat -> nat -> nat.
Variable ords : nat -> uorders.
Hypothesis Hords : forall n, goodOrders (ords n).
Variable sel : nat -> list vec -> list vec.
Hypothesis Hsel : forall n vs v, In v (sel n vs) -> In v vs.
Variable r : resolver.
Variable q : string -> bool.

Definition len (g : gst) : nat := List.length (maps g).

Section Level.
(** [b]: inside a struct that refers to no context; then all maps in use have
    the context entries [G]. *)
Variable b : bool.
Variable G : string -> string -> option Z.

Definition has (g : gst) (i : nat) : Prop :=
  i < len g /\ (b = true -> forall s k, s <> "" -> cLookup (mapOf g i) s k = G s k).
Definition st (g : gst) (vs : list vec) : Prop := wfg g /\ has g (cur g) /\ Forall (fun v => has g (vcons v)) vs.
Definition step (g g' : gst) : Prop := len g <= len g' /\
  (b = true -> forall i s k, i < len g -> s <> "" -> cLookup (mapOf g' i) s k = cLookup (mapOf g i) s k).
Definition post (g : gst) (x : outcome (list vec * gst)) : Prop :=
  match x with Ok (vs, g') => step g g' /\ st g' vs | Err _ => False | _ => True end.

Lemma step_refl : forall g, step g g.
Proof. intros. split; auto. Qed.
Lemma step_trans : forall g g1 g2, step g g1 -> step g1 g2 -> step g g2.
Proof.
  intros g g1 g2 (A & B) (C & D). split; [exact (Nat.le_trans _ _ _ A C)|]. intros E i s k I S.
  rewrite D, B; auto. exact (Nat.lt_le_trans _ _ _ I A).
Qed.
Lemma has_step : forall g g' i, step g g' -> has g i -> has g' i.
Proof. intros g g' i (A & B) (C & D). split; [lia|]. intros E s k S. rewrite B; auto. Qed.
Lemma hasL_step : forall g g' vs, step g g' -> Forall (fun v => has g (vcons v)) vs -> Forall (fun v => has g' (vcons v)) vs.
Proof. intros g g' vs S F. eapply Forall_impl; [|exact F]. cbn. intros v. now apply has_step. Qed.
Lemma step_same : forall g g', maps g' = maps g -> step g g'.
Proof. intros g g' E. split; [unfold len; rewrite E; auto|]. intros. unfold mapOf. rewrite E. auto. Qed.
Lemma step_app : forall g g' news, maps g' = maps g ++ news -> step g g'.
Proof. intros g g' news E. split; [unfold len; rewrite E, app_length; lia|]. intros. unfold len in *. rewrite (mapOf_app g g' news i); auto. Qed.
Lemma st_same : forall g g' vs, maps g' = maps g -> cur g' = cur g -> st g vs -> st g' vs.
Proof.
  intros g g' vs M C (W & H & F). split; [unfold wfg; rewrite M; exact W|]. pose proof (step_same g g' M) as S. split.
  - rewrite C. eapply has_step; eauto.
  - eapply hasL_step; eauto.
Qed.
Lemma st_sub : forall g vs vs', (forall v, In v vs' -> In v vs) -> st g vs -> st g vs'.
Proof. intros g vs vs' I (W & H & F). split; auto. split; auto. rewrite Forall_forall in *. auto. Qed.
Lemma post_ok : forall g vs, st g vs -> post g (Ok (vs, g)).
Proof. intros. split; auto. apply step_refl. Qed.
Lemma post_step : forall g g1 x, step g g1 -> post g1 x -> post g x.
Proof. intros g g1 [[vs g']|e|m|] S P; cbn in *; auto. destruct P. split; auto. eapply step_trans; eauto. Qed.
Lemma post_bind : forall g x (k : list vec * gst -> outcome (list vec * gst)), post g x ->
  (forall vs g1, step g g1 -> st g1 vs -> post g1 (k (vs, g1))) -> post g (bind x k).
Proof. intros g [[vs g']|e|m|] k P K; cbn in *; auto. destruct P as (S & T). eapply post_step; eauto. Qed.

Lemma st_setCur : forall g i vs, st g vs -> has g i -> st (setCur i g) vs.
Proof. intros g i vs (W & H & F) Hi. split; [exact W|]. split; [exact Hi|exact F]. Qed.
Lemma st_more : forall g vs vs', st g vs -> Forall (fun v => has g (vcons v)) vs' -> st g (vs ++ vs').
Proof. intros g vs vs' (W & H & F) F'. split; auto. split; auto. apply Forall_app; auto. Qed.

(** A vector with the current constraints. *)
Lemma st_vectorOf : forall bs g v g' vs, vectorOf bs g = (v, g') -> st g vs -> st g' (v :: vs) /\ maps g' = maps g /\ cur g' = cur g /\ vcons v = cur g.
Proof.
  intros bs g v g' vs E T. unfold vectorOf, newSlice in E. inversion E; subst; clear E. cbn. split; auto.
  assert (T' : st (mkG (maps g) (cur g) (bufs g ++ [bs]) (rnd g) (calls g)) vs) by (eapply st_same; eauto; reflexivity).
  destruct T' as (W & H & F). split; auto.
Qed.

(** [LookupOrCreate] in a map in use. *)
Lemma locreate_step : forall i f v g, refIn b f -> wfg g -> has g i ->
  exists u g', lookupOrCreate i f v g = Ok (u, g') /\ step g g' /\ wfg g' /\ cur g' = cur g.
Proof.
  intros i f v g R W (L & HG). destruct (locreate_spec i f v g W L) as (u & c & E & GM & _ & _ & O).
  exists u, (putMap i c g). split; auto. split; [|split; [now apply putMap_wfg|reflexivity]].
  split; [unfold len; rewrite putMap_len; auto|]. intros B j s k Lj S. destruct (Nat.eq_dec j i) as [->|N].
  - rewrite putMap_same by exact L. apply O. rewrite (R B). congruence.
  - rewrite putMap_other; auto.
Qed.
Lemma clone_step : forall i g vs, st g vs -> has g i -> exists j g', cloneMap ords i g = Ok (j, g') /\ step g g' /\ st g' vs /\ has g' j.
Proof.
  intros i g vs (W & H & F) (L & HG). destruct (cloneMap_spec ords Hords i g W) as (j & g' & c & E & J & (M & C & _) & MJ & W' & LK).
  exists j, g'. pose proof (step_app g g' [c] M) as S. split; auto. split; auto. split.
  - split; auto. split; [rewrite C; eapply has_step; eauto|eapply hasL_step; eauto].
  - split; [unfold len; rewrite M, app_length; cbn; lia|]. intros B s k SN. rewrite MJ, LK. auto.
Qed.
Lemma cloneGlobal_step : forall g vs, st g vs -> exists j g', cloneGlobalMap ords (cur g) g = Ok (j, g') /\ step g g' /\ st g' vs /\ has g' j.
Proof.
  intros g vs (W & H & F). destruct (cloneGlobalMap_spec ords Hords (cur g) g W) as (j & g' & c & E & J & (M & C & _) & MJ & W' & LK).
  exists j, g'. pose proof (step_app g g' [c] M) as S. split; auto. split; auto. split.
  - split; auto. split; [rewrite C; eapply has_step; eauto|eapply hasL_step; eauto].
  - split; [unfold len; rewrite M, app_length; cbn; lia|]. intros B s k SN. rewrite MJ, LK.
    destruct (String.eqb_spec s ""); [contradiction|]. destruct H as (_ & H). auto.
Qed.

(** Other steps leave maps alone. *)
Lemma appendS_maps : forall a x g s g', appendS grow a x g = (s, g') -> maps g' = maps g /\ cur g' = cur g.
Proof. intros. unfold appendS in H. destruct (_ <=? _); inversion H; subst; auto. Qed.
Lemma prepend_st : forall v mvs g l g', prepend grow v mvs g = (l, g') -> st g mvs -> maps g' = maps g /\ st g' l.
Proof.
  intros v. induction mvs as [|mv mvs IH]; intros g l g' H T; cbn [prepend] in H; [inversion H; subst; auto|].
  destruct (appendS grow (vdata mv) (readS g (vdata v)) g) as [dd g1] eqn:E. destruct (prepend grow v mvs g1) as [rest g2] eqn:E2.
  inversion H; subst. destruct (appendS_maps _ _ _ _ _ E) as (M & C). pose proof (st_same _ _ _ M C T) as T1.
  destruct (IH g1 rest g' E2) as (M2 & T2); [eapply st_sub; [|exact T1]; intros; now right|].
  split; [congruence|]. destruct T2 as (W2 & H2 & F2). split; auto. split; auto. constructor; auto. cbn [vcons].
  destruct T1 as (_ & _ & F1). inversion F1; subst. eapply has_step; [apply step_same; exact M2|auto].
Qed.
Lemma select_st : forall vs g x g', select sel vs g = (x, g') -> st g vs -> maps g' = maps g /\ st g' x.
Proof.
  intros vs g x g' H T. unfold select in H. inversion H; subst. split; [reflexivity|]. apply (st_same g); auto. eapply st_sub; [|exact T].
  intros. eapply Hsel; eauto.
Qed.
Lemma lenconstrain_post : forall f vs g, refIn b f -> st g vs -> post g (lenconstrain ords f vs g).
Proof.
  intros f. induction vs as [|v vs IH]; intros g R T; cbn [lenconstrain]; [now apply post_ok|].
  assert (Hv : has g (vcons v)) by (destruct T as (_ & _ & F); inversion F; auto).
  destruct (clone_step (vcons v) g (v :: vs) T Hv) as (c & g1 & -> & S1 & T1 & H1). cbn [bind].
  destruct T1 as (W1 & C1 & F1). destruct (locreate_step c f (Z.of_nat (slen (vdata v))) g1 R W1 H1) as (u & g2 & -> & S2 & W2 & C2). cbn [bind].
  eapply post_step; [eapply step_trans; eauto|]. inversion F1; subst. apply post_bind.
  - apply IH; auto. split; auto. split; [rewrite C2; eapply has_step; eauto|eapply hasL_step; eauto].
  - intros rest g3 S3 T3. apply post_ok. destruct (u =? _)%Z; auto. destruct T3 as (W3 & C3 & F3). split; auto. split; auto.
    constructor; auto. cbn. eapply has_step; [|exact H1]. eapply step_trans; eauto.
Qed.
End Level.

(* ---------- arrays ---------- *)

Definition look (g : gst) (v : vec) : string -> string -> option Z := cLookup (mapOf g (vcons v)).
Definition validV (g : gst) (v : vec) : Prop := vcons v < len g.

Lemma mapOf_app2 : forall g g' news v, maps g' = maps g ++ news -> validV g v -> mapOf g' (vcons v) = mapOf g (vcons v).
Proof. intros. eapply mapOf_app; eauto. Qed.
Lemma validV_app : forall g g' news v, maps g' = maps g ++ news -> validV g v -> validV g' v.
Proof. unfold validV, len. intros g g' news v E H. rewrite E, app_length. lia. Qed.

Lemma crossOne_ok : forall u bs g, wfg g -> validV g u -> Forall (validV g) bs ->
  (forall w, In w bs -> compatible (mapOf g (vcons u)) (mapOf g (vcons w))) ->
  exists l g' news, crossOne grow ords u bs g = Ok (l, g') /\ maps g' = maps g ++ news /\ cur g' = cur g /\ wfg g' /\
    Forall (fun x => validV g' x /\ exists w, In w bs /\ forall s k, look g' x s k = match look g u s k with Some v => Some v | None => look g w s k end) l.
Proof.
  intros u. induction bs as [|w bs IH]; intros g W Vu Vb CP; cbn [crossOne].
  - exists [], g, []. rewrite app_nil_r. auto.
  - inversion Vb as [|? ? Vw Vb']; subst.
    destruct (mergeMaps_spec ords Hords (vcons u) (vcons w) g W) as (A & _).
    destruct (A (CP w (or_introl eq_refl))) as (m & g1 & c & -> & Em & (M1 & C1 & _) & Mc & W1 & LK). cbn [bind].
    destruct (appendS grow (vdata u) (readS g1 (vdata w)) g1) as [dd g2] eqn:EA. destruct (appendS_maps _ _ _ _ _ EA) as (M2 & C2).
    assert (M12 : maps g2 = maps g ++ [c]) by congruence.
    destruct (IH g2) as (l & g3 & news & E3 & M3 & C3 & W3 & F3).
    { unfold wfg. rewrite M2. exact W1. }
    { eapply validV_app; eauto. }
    { eapply Forall_impl; [|exact Vb']. cbn. intros. eapply validV_app; eauto. }
    { intros w' Iw. rewrite (mapOf_app2 g g2 [c] u), (mapOf_app2 g g2 [c] w'); auto; [apply CP; now right|].
      rewrite Forall_forall in Vb'. auto. }
    rewrite E3. cbn [bind]. exists (mkVec dd m :: l), g3, ([c] ++ news). split; auto. split; [rewrite M3, M12, app_assoc; auto|].
    split; [congruence|]. split; auto. constructor.
    + assert (V2 : validV g2 (mkVec dd m)) by (unfold validV, len; cbn; rewrite M12, app_length; cbn; lia).
      split; [eapply validV_app; eauto|]. exists w. split; [now left|]. intros s k. unfold look at 1. rewrite (mapOf_app2 g2 g3 news); auto. cbn [vcons].
      replace (mapOf g2 m) with (mapOf g1 m) by (unfold mapOf; rewrite M2; auto). rewrite Mc. apply LK.
    + eapply Forall_impl; [|exact F3]. cbn. intros x (Vx & w' & Iw & L). split; auto. exists w'. split; auto. intros s k. rewrite L.
      unfold look. rewrite (mapOf_app2 g g2 [c] u), (mapOf_app2 g g2 [c] w'); auto. rewrite Forall_forall in Vb'. auto.
Qed.
Lemma cross_ok : forall a bs g, wfg g -> Forall (validV g) a -> Forall (validV g) bs ->
  (forall u w, In u a -> In w bs -> compatible (mapOf g (vcons u)) (mapOf g (vcons w))) ->
  exists l g' news, cross grow ords a bs g = Ok (l, g') /\ maps g' = maps g ++ news /\ cur g' = cur g /\ wfg g' /\
    Forall (fun x => validV g' x /\ exists u w, In u a /\ In w bs /\ forall s k, look g' x s k = match look g u s k with Some v => Some v | None => look g w s k end) l.
Proof.
  induction a as [|u a IH]; intros bs g W Va Vb CP; cbn [cross].
  - exists [], g, []. rewrite app_nil_r. auto.
  - inversion Va as [|? ? Vu Va']; subst.
    destruct (crossOne_ok u bs g W Vu Vb) as (l1 & g1 & n1 & -> & M1 & C1 & W1 & F1); [intros; apply CP; auto; now left|]. cbn [bind].
    assert (X : forall v, In v a -> mapOf g1 (vcons v) = mapOf g (vcons v)) by (intros; eapply mapOf_app2; eauto; rewrite Forall_forall in Va'; auto).
    assert (Y : forall v, In v bs -> mapOf g1 (vcons v) = mapOf g (vcons v)) by (intros; eapply mapOf_app2; eauto; rewrite Forall_forall in Vb; auto).
    destruct (IH bs g1) as (l2 & g2 & n2 & -> & M2 & C2 & W2 & F2); auto.
    { eapply Forall_impl; [|exact Va']. cbn. intros. eapply validV_app; eauto. }
    { eapply Forall_impl; [|exact Vb]. cbn. intros. eapply validV_app; eauto. }
    { intros u' w' Iu Iw. rewrite X, Y; auto. apply CP; auto. now right. }
    cbn [bind]. exists (l1 ++ l2), g2, (n1 ++ n2). split; auto. split; [rewrite M2, M1, app_assoc; auto|]. split; [congruence|]. split; auto.
    apply Forall_app. split.
    + eapply Forall_impl; [|exact F1]. cbn. intros x (Vx & w' & Iw & L). split; [eapply validV_app; eauto|]. exists u, w'. split; auto. split; auto.
      intros s k. rewrite <- L. unfold look. rewrite (mapOf_app2 g1 g2 n2); auto.
    + eapply Forall_impl; [|exact F2]. cbn. intros x (Vx & u' & w' & Iu & Iw & L). split; auto. exists u', w'. split; auto. split; auto.
      intros s k. rewrite L. unfold look. rewrite X, Y; auto.
Qed.

(** Elements that leave the constraints alone. *)
Definition plainElem (elem : gst -> outcome (list vec * gst)) : Prop := forall g, wfg g ->
  match elem g with
  | Ok (w, g') => maps g' = maps g /\ cur g' = cur g /\ Forall (fun v => vcons v = cur g) w
  | Err _ => False
  | _ => True
  end.
Definition likeCur (g : gst) (v : vec) : Prop := validV g v /\ forall s k, look g v s k = cLookup (mapOf g (cur g)) s k.
Lemma arrayLoop_plain : forall elem, plainElem elem -> forall n vs g, wfg g -> cur g < len g -> Forall (likeCur g) vs ->
  match arrayLoop grow ords sel elem n vs g with
  | Ok (vs', g') => (exists news, maps g' = maps g ++ news) /\ cur g' = cur g /\ wfg g' /\ Forall (likeCur g') vs'
  | Err _ => False
  | _ => True
  end.
Proof.
  intros elem PE. induction n as [|n IH]; intros vs g W C F; cbn [arrayLoop].
  - split; [exists []; now rewrite app_nil_r|]. auto.
  - specialize (PE g W) as PG. destruct (elem g) as [[w g1]|e|m|]; cbn [bind]; auto. destruct PG as (M1 & C1 & F1).
    assert (W1 : wfg g1) by (unfold wfg; rewrite M1; exact W).
    assert (SM : forall i, mapOf g1 i = mapOf g i) by (intros; unfold mapOf; rewrite M1; auto).
    assert (Vw : Forall (validV g1) w) by (eapply Forall_impl; [|exact F1]; cbn; intros v E; unfold validV, len in *; rewrite E, M1; auto).
    assert (Vs : Forall (validV g1) vs) by (eapply Forall_impl; [|exact F]; cbn; intros v (E & _); unfold validV, len in *; rewrite M1; auto).
    destruct (cross_ok w vs g1 W1 Vw Vs) as (l & g2 & news & -> & M2 & C2 & W2 & F2).
    { intros u x Iu Ix s k y z. rewrite Forall_forall in F, F1. rewrite !SM. rewrite (F1 u Iu). destruct (F x Ix) as (_ & L). unfold look in L. rewrite L. congruence. }
    cbn [bind]. destruct (select sel l g2) as [v2 g3] eqn:ES. unfold select in ES. inversion ES; subst; clear ES.
    assert (CC : forall s k, cLookup (mapOf (tick g2) (cur (tick g2))) s k = cLookup (mapOf g (cur g)) s k).
    { intros s k. change (mapOf (tick g2)) with (mapOf g2). change (cur (tick g2)) with (cur g2). rewrite C2, C1.
      rewrite (mapOf_app g1 g2 news); [rewrite SM; reflexivity|exact M2|]. unfold len in C. rewrite M1. auto. }
    pose proof (IH (sel (calls g2) l) (tick g2)) as R. 
    destruct (arrayLoop grow ords sel elem n (sel (calls g2) l) (tick g2)) as [[vs' g']|e|m|]; auto.
    + destruct R as ((n2 & M3) & C3 & W3 & F3).
      * exact W2.
      * change (len (tick g2)) with (len g2). change (cur (tick g2)) with (cur g2). unfold len in *. rewrite C2, C1, M2, M1, app_length. lia.
      * apply Forall_forall. intros v I. apply Hsel in I. rewrite Forall_forall in F2. destruct (F2 v I) as (Vv & u & x & Iu & Ix & L).
        split; [exact Vv|]. intros s k. rewrite CC. change (look (tick g2) v s k) with (look g2 v s k). rewrite L. unfold look. rewrite !SM.
        rewrite Forall_forall in F, F1. rewrite (F1 u Iu). destruct (F x Ix) as (_ & Lx). unfold look in Lx. rewrite Lx. destruct (cLookup _ s k); auto.
      * split; [exists (news ++ n2); change (maps (tick g2)) with (maps g2) in M3; rewrite M3, M2, M1, app_assoc; auto|]. split; [rewrite C3; cbn; congruence|]. auto.
    + exfalso. apply R.
      * exact W2.
      * change (len (tick g2)) with (len g2). change (cur (tick g2)) with (cur g2). unfold len in *. rewrite C2, C1, M2, M1, app_length. lia.
      * apply Forall_forall. intros v I. apply Hsel in I. rewrite Forall_forall in F2. destruct (F2 v I) as (Vv & u & x & Iu & Ix & L).
        split; [exact Vv|]. intros s k. rewrite CC. change (look (tick g2) v s k) with (look g2 v s k). rewrite L. unfold look. rewrite !SM.
        rewrite Forall_forall in F, F1. rewrite (F1 u Iu). destruct (F x Ix) as (_ & Lx). unfold look in Lx. rewrite Lx. destruct (cLookup _ s k); auto.
Qed.

(** Elements that are structs without contexts: they keep the context entries
    and record nothing local. *)
Definition noLocal (g : gst) (v : vec) : Prop := forall k, look g v "" k = None.
Definition quietElem (elem : gst -> outcome (list vec * gst)) : Prop := forall G g, st true G g [] ->
  match elem g with
  | Ok (w, g') => step true g g' /\ st true G g' w /\ Forall (noLocal g') w
  | Err _ => False
  | _ => True
  end.
Lemma arrayLoop_quiet : forall elem, quietElem elem -> forall G n vs g, st true G g vs -> post true G g (arrayLoop grow ords sel elem n vs g).
Proof.
  intros elem QE G. induction n as [|n IH]; intros vs g T; cbn [arrayLoop]; [now apply post_ok|].
  assert (T0 : st true G g []) by (eapply st_sub; [|exact T]; intros v []).
  specialize (QE G g T0) as QG. destruct (elem g) as [[w g1]|e|m|]; cbn [bind]; auto; try exact QG. destruct QG as (S1 & T1 & N1).
  destruct T as (W & H & F). pose proof (hasL_step _ _ _ _ _ S1 F) as F1. destruct T1 as (W1 & H1 & Fw).
  destruct (cross_ok w vs g1 W1) as (l & g2 & news & -> & M2 & C2 & W2 & F2).
  { eapply Forall_impl; [|exact Fw]. cbn. intros v (A & _). exact A. }
  { eapply Forall_impl; [|exact F1]. cbn. intros v (A & _). exact A. }
  { intros u x Iu Ix s k y z Ey Ez. rewrite Forall_forall in N1, Fw, F1. destruct (String.eqb_spec s "") as [->|N].
    - specialize (N1 u Iu k). unfold look in N1. congruence.
    - destruct (Fw u Iu) as (_ & A). destruct (F1 x Ix) as (_ & B). rewrite A in Ey by auto. rewrite B in Ez by auto. congruence. }
  cbn [bind]. destruct (select sel l g2) as [v2 g3] eqn:ES. pose proof (step_app true g1 g2 news M2) as S2.
  assert (T2 : st true G g2 l).
  { split; auto. split; [rewrite C2; eapply has_step; eauto|]. eapply Forall_impl; [|exact F2]. cbn. intros x (Vx & u & y & Iu & Iy & L).
    split; [exact Vx|]. intros _ s k SN. change (look g2 x s k = G s k). rewrite L. rewrite Forall_forall in Fw, F1. unfold look.
    destruct (Fw u Iu) as (_ & A). destruct (F1 y Iy) as (_ & B). rewrite A, B by auto. destruct (G s k); auto. }
  destruct (select_st true G _ _ _ _ ES T2) as (M3 & T3).
  eapply post_step; [exact S1|]. eapply post_step; [exact S2|]. eapply post_step; [apply step_same; exact M3|]. now apply IH.
Qed.

Lemma st_level : forall b G G0 g vs, st true G0 g vs -> (b = true -> forall s k, s <> "" -> G0 s k = G s k) -> st b G g vs.
Proof.
  intros b G G0 g vs (W & H & F) E. assert (X : forall i, has true G0 g i -> has b G g i).
  { intros i (A & B). split; auto. intros Eb s k S. rewrite B; auto. }
  split; auto. split; auto. eapply Forall_impl; [|exact F]. cbn. auto.
Qed.
Lemma step_level : forall b g g', step true g g' -> step b g g'.
Proof. intros b g g' (A & B). split; auto. Qed.
Lemma post_level : forall b G G0 g x, post true G0 g x -> (b = true -> forall s k, s <> "" -> G0 s k = G s k) -> post b G g x.
Proof. intros b G G0 g [[vs g']|e|m|] P E; cbn in *; auto. destruct P. split; [now apply step_level|eapply st_level; eauto]. Qed.

(* ---------- fields ---------- *)

(** A single vector with the current constraints. *)
Definition plainOut (g : gst) (x : outcome (list vec * gst)) : Prop :=
  match x with
  | Ok (w, g') => maps g' = maps g /\ cur g' = cur g /\ Forall (fun v => vcons v = cur g) w
  | Err _ => False
  | _ => True
  end.
Lemma plain_post : forall b G g x, st b G g [] -> plainOut g x -> post b G g x.
Proof.
  intros b G g [[w g']|e|m|] T P; cbn in *; auto. destruct P as (M & C & F). pose proof (step_same b g g' M) as S. split; auto.
  pose proof (st_same b G g g' [] M C T) as (W & H & _). split; auto. split; auto. eapply Forall_impl; [|exact F]. cbn. intros v ->. rewrite <- C. exact H.
Qed.
Lemma Intn_maps : forall n g x g', Intn n g = (x, g') -> maps g' = maps g /\ cur g' = cur g.
Proof. intros. unfold Intn, draw in H. inversion H; subst. auto. Qed.
Lemma randbtw_maps : forall a b g x g', randbtw a b g = (x, g') -> maps g' = maps g /\ cur g' = cur g.
Proof. intros. unfold randbtw in H. destruct (Intn _ g) as [y g1] eqn:E. inversion H; subst. eapply Intn_maps; eauto. Qed.
Lemma randRead_maps : forall n g x g', randRead n g = (x, g') -> maps g' = maps g /\ cur g' = cur g.
Proof.
  induction n as [|n IH]; intros g x g' H; cbn [randRead] in H; [inversion H; auto|].
  destruct (Intn 256 g) as [y g1] eqn:E. destruct (randRead n g1) as [l g2] eqn:E2. inversion H; subst.
  apply Intn_maps in E. apply IH in E2. intuition congruence.
Qed.
Lemma randLetters_maps : forall n g x g', randLetters n g = (x, g') -> maps g' = maps g /\ cur g' = cur g.
Proof.
  induction n as [|n IH]; intros g x g' H; cbn [randLetters] in H; [inversion H; auto|].
  destruct (Intn 26 g) as [y g1] eqn:E. destruct (randLetters n g1) as [l g2] eqn:E2. inversion H; subst.
  apply Intn_maps in E. apply IH in E2. intuition congruence.
Qed.
Lemma randbytes_maps : forall a b g x g', randbytes a b g = (x, g') -> maps g' = maps g /\ cur g' = cur g.
Proof.
  intros a b g x g' H. unfold randbytes in H. destruct (randbtw a b g) as [n g1] eqn:E. apply randbtw_maps in E. apply randRead_maps in H. intuition congruence.
Qed.
Lemma randnulterm_maps : forall a b g x g', randnulterm a b g = (x, g') -> maps g' = maps g /\ cur g' = cur g.
Proof.
  intros a b g x g' H. unfold randnulterm in H. destruct (randbtw a b g) as [n g1] eqn:E. destruct (randLetters (Z.to_nat n) g1) as [l g2] eqn:E2.
  inversion H; subst. apply randbtw_maps in E. apply randLetters_maps in E2. intuition congruence.
Qed.
Lemma vectorOf_maps : forall bs g v g', vectorOf bs g = (v, g') -> maps g' = maps g /\ cur g' = cur g /\ vcons v = cur g.
Proof. intros. unfold vectorOf, newSlice in H. inversion H; subst. auto. Qed.
Lemma emptyVec_maps : forall g v g', emptyVec g = (v, g') -> maps g' = maps g /\ cur g' = cur g /\ vcons v = cur g.
Proof. intros. eapply vectorOf_maps; eauto. Qed.

Lemma listable_ok : forall l, listable r l -> exists s, Intervals r l = Ok s.
Proof. intros l (A & B). destruct (Intervals_correct r l A) as [(C & _)|(_ & s & E & _)]; [contradiction|eauto]. Qed.

Lemma randomIn_maps : forall n s g, match randomIn n s g with Ok (_, g') => maps g' = maps g /\ cur g' = cur g | Err _ => False | _ => True end.
Proof.
  intros. unfold randomIn. assert (N : forall e, RandomWithGenerator n s (rnd g) <> Err e).
  { intros e H. unfold RandomWithGenerator in H. destruct (intervals s) as [|i l]; [discriminate|].
    destruct (buildSteps 0 (i :: l)) as [steps cuml]. unfold randuint64n in H.
    assert (X : forall fuel rn mk m e, rejectLoop fuel rn mk m <> Err e).
    { clear. induction fuel as [|fuel IH]; intros rn mk m e; cbn [rejectLoop]; [discriminate|]. destruct (randuint64 rn) as [w rn1].
      destruct (Z.land w mk <? m)%Z; [discriminate|auto]. }
    destruct (rejectLoop _ _ _ _) as [[v rn']| | |] eqn:E; cbn [bind] in H; try discriminate; [|now apply X in E].
    assert (Y : forall l x e, pickStep x l <> Err e).
    { clear. induction l as [|a l IH]; intros x e; cbn; try discriminate. repeat match goal with |- context [if ?c then _ else _] => destruct c
       | |- context [let '(_, _) := ?c in _] => destruct c | |- context [match ?c with _ => _ end] => destruct c end; try discriminate; apply IH. }
    destruct (pickStep v steps) eqn:EP; cbn in H; try discriminate. now apply Y in EP. }
  destruct (RandomWithGenerator n s (rnd g)) as [[x rn]|e|m|]; cbn; auto. now apply (N e).
Qed.

Lemma intType_plain : forall n nm sz cst g, (forall l, cst = Some l -> listable r l) -> plainOut g (intType r n nm sz cst g).
Proof.
  intros n nm sz cst g L. unfold intType. destruct (cLookup _ _ _).
  - cbn [bind]. destruct (vectorOf _ g) as [v g2] eqn:E. apply vectorOf_maps in E. cbn. intuition.
  - destruct cst as [l|].
    + destruct (listable_ok l (L l eq_refl)) as (s & ->). cbn [bind]. pose proof (randomIn_maps n s g) as R.
      destruct (randomIn n s g) as [[x g1]|e|m|]; cbn [bind]; auto. destruct (vectorOf _ g1) as [v g2] eqn:E. apply vectorOf_maps in E. cbn.
      destruct E as (E1 & E2 & E3). destruct R as (R1 & R2). split; [congruence|]. split; [congruence|]. constructor; [congruence|constructor].
    + cbn [bind]. destruct (randint sz g) as [bs g1] eqn:ER. destruct (vectorOf _ g1) as [v g2] eqn:E. apply vectorOf_maps in E. cbn.
      unfold randint in ER. apply randRead_maps in ER. destruct E as (E1 & E2 & E3). destruct ER as (R1 & R2). split; [congruence|]. split; [congruence|].
      constructor; [congruence|constructor].
Qed.

(** A struct leaves nothing local behind. *)
Definition structPost (b : bool) (G : string -> string -> option Z) (g : gst) (x : outcome (list vec * gst)) : Prop :=
  match x with
  | Ok (w, g') => step b g g' /\ st b G g' w /\ Forall (noLocal g') w
  | Err _ => False
  | _ => True
  end.
Lemma struct_post : forall b G g x, structPost b G g x -> post b G g x.
Proof. intros b G g [[w g']|e|m|] P; cbn in *; intuition. Qed.

Section Struct.
Variable fuel : nat.
Variable callS : struct -> gst -> outcome (list vec * gst).
Hypothesis HcallS : forall n s, StructNonExtern r n = Ok s -> forall b G g, (b = true -> q n = true) -> st b G g [] -> structPost b G g (callS s g).
Variable strct : struct.

Lemma plain_elem : forall e, sucElem r q e -> (forall n, e <> TStruct n) -> plainElem (field grow ords sel r fuel callS "" e).
Proof.
  intros e S N g W. change (plainOut g (field grow ords sel r fuel callS "" e g)). destruct e as [sz cst| | | |n|? ?|? ?]; cbn in S; try contradiction; cbn [field].
  - apply intType_plain. intros l ->. exact S.
  - apply intType_plain. discriminate.
  - destruct (emptyVec g) as [v g1] eqn:E. apply emptyVec_maps in E. cbn. intuition.
  - destruct (randnulterm 2 20 g) as [l g1] eqn:E. destruct (vectorOf l g1) as [v g2] eqn:E2. apply vectorOf_maps in E2. apply randnulterm_maps in E.
    destruct E as (R1 & R2). destruct E2 as (E1 & E2 & E3). cbn. split; [congruence|]. split; [congruence|]. constructor; [congruence|constructor].
  - exfalso. now apply (N n).
Qed.
Lemma quiet_elem : forall n, knownStruct r q true n -> quietElem (field grow ords sel r fuel callS "" (TStruct n)).
Proof.
  intros n ((s & E) & Q) G g T. cbn [field]. rewrite E. cbn [bind]. apply (HcallS n s E true G g); auto.
Qed.

Lemma arrayLoop_post : forall b G e n iv g, sucElem r q e -> st b G g [iv] -> vcons iv = cur g ->
  post b G g (arrayLoop grow ords sel (field grow ords sel r fuel callS "" e) n [iv] g).
Proof.
  intros b G e n iv g S T V.
  assert (D : (exists m, e = TStruct m) \/ forall m, e <> TStruct m) by (destruct e; eauto; right; discriminate).
  pose proof T as (W & H & F). pose proof H as (HC & HG). destruct D as [(m & ->)|N].
  - apply (post_level b G (cLookup (mapOf g (cur g)))).
    + apply arrayLoop_quiet; [now apply quiet_elem|]. split; auto. assert (X : has true (cLookup (mapOf g (cur g))) g (cur g)) by (split; auto).
      split; auto. constructor; [rewrite V; auto|constructor].
    + intros B s k SN. apply HG; auto.
  - pose proof (arrayLoop_plain _ (plain_elem e S N) n [iv] g W HC) as P.
    destruct (arrayLoop grow ords sel _ n [iv] g) as [[vs g']|x|x|]; cbn; auto.
    + destruct P as ((news & M) & C & W' & F').
      { constructor; [|constructor]. split; [unfold validV; rewrite V; auto|]. intros. unfold look. now rewrite V. }
      pose proof (step_app b g g' news M) as SP. split; auto. assert (HC' : has b G g' (cur g')) by (rewrite C; eapply has_step; eauto).
      split; auto. split; auto. eapply Forall_impl; [|exact F']. cbn. intros v (A & B). split; [exact A|]. intros E s k SN.
      change (look g' v s k = G s k). rewrite B. now apply HC'.
    + apply P. constructor; [|constructor]. split; [unfold validV; rewrite V; auto|]. intros. unfold look. now rewrite V.
Qed.

Lemma field_post : forall b G t nm g, sucType r q b t -> st b G g [] -> post b G g (field grow ords sel r fuel callS nm t g).
Proof.
  intros b G t nm g S T. destruct t as [sz cst| | | |n|e i|e len]; cbn [sucType] in S; cbn [field].
  - apply plain_post; auto. apply intType_plain. intros l ->. exact S.
  - apply plain_post; auto. apply intType_plain. discriminate.
  - apply plain_post; auto. destruct (emptyVec g) as [v g1] eqn:E. apply emptyVec_maps in E. cbn. intuition.
  - apply plain_post; auto. destruct (randnulterm 2 20 g) as [l g1] eqn:E. destruct (vectorOf l g1) as [v g2] eqn:E2. apply vectorOf_maps in E2. apply randnulterm_maps in E.
    destruct E as (R1 & R2). destruct E2 as (E1 & E2 & E3). cbn. split; [congruence|]. split; [congruence|]. constructor; [congruence|constructor].
  - destruct S as ((s & E) & Q). rewrite E. cbn [bind]. apply struct_post. eapply HcallS; eauto.
  - destruct S as (S & k & Ek). destruct (emptyVec g) as [v g1] eqn:E. destruct (st_vectorOf b G _ _ _ _ _ E T) as (T1 & M1 & C1 & V1).
    rewrite Ek. cbn [bind]. eapply post_step; [apply step_same; exact M1|]. apply arrayLoop_post; auto. congruence.
  - destruct S as (S & L). destruct (emptyVec g) as [v g1] eqn:E. destruct (st_vectorOf b G _ _ _ _ _ E T) as (T1 & M1 & C1 & V1).
    destruct (randbtw 1 20 g1) as [k g2] eqn:E2. apply randbtw_maps in E2. destruct E2 as (M2 & C2).
    pose proof (st_same b G _ _ _ M2 C2 T1) as T2.
    destruct len as [[f|e']|]; cbn in L; [|contradiction|].
    + assert (Hv : has b G g2 (vcons v)) by (destruct T2 as (_ & _ & F2); inversion F2; auto). pose proof T2 as (W2 & H2 & F2).
      destruct (locreate_step b G (vcons v) f k g2 L W2 Hv) as (u & g3 & E3 & S3 & W3 & C3).
      change (post b G g ('(n, g3) <- lookupOrCreate (vcons v) f k g2;; arrayLoop grow ords sel (field grow ords sel r fuel callS "" e) (Z.to_nat n) [v] g3)).
      rewrite E3. cbn [bind]. eapply post_step; [apply step_same; exact M1|]. eapply post_step; [apply step_same; exact M2|].
      eapply post_step; [exact S3|]. apply arrayLoop_post; auto; [|congruence]. split; auto. split; [rewrite C3; eapply has_step; eauto|eapply hasL_step; eauto].
    + eapply post_step; [apply step_same; exact M1|]. eapply post_step; [apply step_same; exact M2|]. apply arrayLoop_post; auto. congruence.
Qed.

Lemma extend_post : forall b G mem, (forall g, st b G g [] -> post b G g (mem g)) ->
  forall vs g, st b G g vs -> post b G g (extend grow mem vs g).
Proof.
  intros b G mem M. induction vs as [|v vs IH]; intros g T; cbn [extend]; [now apply post_ok|].
  assert (Hv : has b G g (vcons v) /\ st b G g vs) by (pose proof T as (A & B & F); inversion F; split; auto; split; auto).
  destruct Hv as (Hv & Tv). apply (post_step b G g (setCur (vcons v) g)); [now apply step_same|].
  apply post_bind; [apply M; apply st_setCur; auto; eapply st_sub; [|exact Tv]; intros ? []|].
  intros mvs g1 S1 T1. destruct (prepend grow v mvs g1) as [e g2] eqn:E. destruct (prepend_st b G _ _ _ _ _ E T1) as (M2 & T2).
  pose proof (step_same b g1 g2 M2) as S2. eapply post_step; [exact S2|]. 
  assert (Fv : Forall (fun v => has b G g2 (vcons v)) vs).
  { destruct Tv as (_ & _ & F). eapply hasL_step; [exact S2|]. eapply hasL_step; [exact S1|]. exact F. }
  apply post_bind.
  - apply IH. destruct T2 as (W2 & H2 & _). split; auto.
  - intros rest g3 S3 T3. apply post_ok. destruct T3 as (W3 & H3 & F3). split; auto. split; auto. apply Forall_app. split; auto.
    destruct T2 as (_ & _ & F2). eapply hasL_step; eauto.
Qed.
Lemma members_post : forall b G mem ms, (forall m, In m ms -> forall g, st b G g [] -> post b G g (mem m g)) ->
  forall vs g, st b G g vs -> post b G g (membersLoop grow sel mem ms vs g).
Proof.
  intros b G mem. induction ms as [|m ms IH]; intros M vs g T; cbn [membersLoop]; [now apply post_ok|].
  apply post_bind; [apply IH; auto; intros; apply M; auto; now right|]. intros vs1 g1 S1 T1.
  apply post_bind; [apply extend_post; auto; apply M; now left|]. intros ext g2 S2 T2. destruct (select sel ext g2) as [x g3] eqn:E.
  destruct (select_st b G _ _ _ _ E T2) as (M3 & T3). split; auto. now apply step_same.
Qed.

Lemma branchLoop_ok : forall cs ds k, (forall c l, In c cs -> ucase_list c = Some l -> l <> [] /\ listable r l) -> wf_set ds ->
  exists bs d k', branchLoop r cs ds k = Ok (bs, d, k') /\ Forall (fun x => In (bcase x) cs) bs /\ (k' = k \/ exists c, k' = Some c /\ In c cs).
Proof.
  induction cs as [|c cs IH]; intros ds k F W; cbn [branchLoop].
  - exists [], ds, k. auto.
  - destruct (ucase_list c) as [l|] eqn:L.
    + destruct (F c l (or_introl eq_refl) L) as (NE & LL). destruct (listable_ok l LL) as (s & E). destruct LL as (GL & _).
      rewrite E. cbn [bind]. destruct (Intervals_ok r l s GL E) as (Ws & _ & N). destruct (subtract_correct ds s W Ws (N NE)) as (d1 & -> & W1 & _). cbn [bind].
      destruct (IH d1 k) as (bs & d & k' & -> & FB & K); auto; [intros; eapply F; eauto; now right|]. cbn [bind].
      eexists _, _, _. split; [reflexivity|]. split.
      * constructor; [now left|]. eapply Forall_impl; [|exact FB]. cbn. auto.
      * destruct K as [->|(c0 & -> & I)]; auto. right. exists c0. split; auto. now right.
    + destruct (IH ds (Some c)) as (bs & d & k' & -> & FB & K); auto; [intros; eapply F; eauto; now right|].
      eexists _, _, _. split; [reflexivity|]. split.
      * eapply Forall_impl; [|exact FB]. cbn. auto.
      * right. destruct K as [->|(c0 & -> & I)]; [exists c; split; auto; now left|exists c0; split; auto; now right].
Qed.
Lemma branches_ok : forall tag cs, sucCases r strct tag cs -> exists bs, NewBranches r strct tag cs = Ok bs /\ Forall (fun x => In (bcase x) cs) bs.
Proof.
  intros tag cs ((sz & cst & E & Hs) & F). unfold NewBranches. rewrite E. cbn [bind]. destruct (inttype_correct sz Hs) as (d0 & -> & W0 & _). cbn [bind].
  destruct (branchLoop_ok cs d0 None F W0) as (bs & d & k & -> & FB & K). cbn [bind]. eexists. split; [reflexivity|].
  destruct k as [c|]; auto. destruct K as [K|(c0 & K & I)]; [discriminate|]. inversion K; subst. apply Forall_app. split; auto.
Qed.

Lemma unionLoop_post : forall b G gen tag base bs, refIn b tag ->
  (forall x, In x bs -> forall vs g, st b G g vs -> post b G g (gen (bcase x) vs g)) ->
  forall g, st b G g [] -> has b G g base -> post b G g (unionLoop ords fuel gen tag base bs g).
Proof.
  intros b G gen tag base bs R. induction bs as [|x bs IH]; intros GB g T Hb; cbn [unionLoop]; [now apply post_ok|].
  destruct (clone_step b G base g [] T Hb) as (c & g1 & -> & S1 & T1 & H1). cbn [bind].
  eapply post_step; [exact S1|]. pose proof (randomIn_maps fuel (bset x) (setCur c g1)) as RM.
  destruct (randomIn fuel (bset x) (setCur c g1)) as [[y g3]|e|m|]; cbn [bind]; try exact RM; try exact I. destruct RM as (M3 & C3).
  pose proof (st_same b G _ _ [] M3 C3 (st_setCur b G g1 c [] T1 H1)) as T3.
  assert (S3 : step b g1 g3) by now apply step_same.
  pose proof T3 as (W3 & Hc3 & _). destruct (locreate_step b G (cur g3) tag (s64 y) g3 R W3 Hc3) as (u & g4 & -> & S4 & W4 & C4). cbn [bind].
  assert (T4 : st b G g4 []) by (split; auto; split; [rewrite C4; eapply has_step; eauto|constructor]).
  destruct (emptyVec g4) as [ev g5] eqn:E5. destruct (st_vectorOf b G _ _ _ _ _ E5 T4) as (T5 & M5 & C5 & V5).
  eapply post_step; [exact S3|]. eapply post_step; [exact S4|]. eapply post_step; [apply step_same; exact M5|].
  assert (SB : step b g g5). { eapply step_trans; [exact S1|]. eapply step_trans; [exact S3|]. eapply step_trans; [exact S4|]. apply step_same. exact M5. }
  apply post_bind; [apply GB; auto; now left|]. intros vs g6 S6 T6.
  apply post_bind.
  - apply IH; [intros; apply GB; auto; now right| |].
    + eapply st_sub; [|exact T6]. intros ? [].
    + eapply has_step; [|exact Hb]. eapply step_trans; eauto.
  - intros rest g7 S7 T7. apply post_ok. destruct T7 as (W7 & H7 & F7). split; auto. split; auto. apply Forall_app. split; auto.
    destruct T6 as (_ & _ & F6). eapply hasL_step; eauto.
Qed.

Lemma gmember_post : forall b G gen m, sucMember r q b strct m ->
  (forall c, (exists nm tag len cs, m = MUnion nm tag len cs /\ In c cs) -> forall vs g, st b G g vs -> post b G g (gen c vs g)) ->
  forall g, st b G g [] -> post b G g (gmember grow ords sel r fuel callS strct gen m g).
Proof.
  intros b G gen m F GN g T. destruct m as [nm t|nm tag len cs| | |]; cbn [gmember].
  - now apply field_post.
  - destruct (sucMember_union _ _ _ _ _ _ _ _ F) as (FC & FR & FL & FM).
    destruct (branches_ok tag cs FC) as (bs & -> & FB). cbn [bind]. rewrite Forall_forall in FB.
    destruct (unionOptions bs _) as [opts|] eqn:EO; [|now apply post_ok].
    assert (S : forall x, In x opts -> In x bs).
    { unfold unionOptions in EO. destruct (cLookupRef _ _) as [x|]; [|inversion EO; auto].
      destruct (Lookup bs x) as [b0|] eqn:EL; [|discriminate]. inversion EO; subst. intros y [<-|[]]. unfold Lookup in EL. eapply find_In; eauto. }
    pose proof T as (W & HC & _). destruct (clone_step b G (cur g) g [] T HC) as (base & g1 & -> & S1 & T1 & H1). cbn [bind].
    eapply post_step; [exact S1|]. apply post_bind.
    + apply unionLoop_post; auto. intros x Ix. apply GN. exists nm, tag, len, cs. auto.
    + intros results g2 S2 T2. destruct len as [[f|k]|]; cbn in FL; [now apply lenconstrain_post|contradiction|now apply post_ok].
  - apply plain_post; auto. destruct (emptyVec g) as [v g1] eqn:E. apply emptyVec_maps in E. cbn. intuition.
  - now apply post_ok.
  - apply plain_post; auto. destruct (emptyVec g) as [a g1] eqn:E. destruct (randbytes 1 7 g1) as [bs g2] eqn:E2. destruct (vectorOf bs g2) as [v g3] eqn:E3.
    apply emptyVec_maps in E. apply randbytes_maps in E2. apply vectorOf_maps in E3.
    destruct E as (A1 & A2 & A3), E2 as (B1 & B2), E3 as (D1 & D2 & D3). cbn. split; [congruence|]. split; [congruence|].
    constructor; [congruence|]. constructor; [congruence|constructor].
Qed.
End Struct.

(* ---------- structs ---------- *)

Lemma clear_step : forall b i g, step b g (clearMap i g).
Proof.
  intros. unfold clearMap. split; [unfold len; rewrite putMap_len; auto|]. intros B j s k L S. destruct (Nat.eq_dec j i) as [->|N].
  - rewrite putMap_same by auto. rewrite clearLocal_lookup. destruct (String.eqb_spec s ""); [contradiction|auto].
  - rewrite putMap_other; auto.
Qed.
Lemma clear_wfg : forall i g, wfg g -> wfg (clearMap i g).
Proof. intros. apply putMap_wfg; auto. apply clearLocal_goMap. now apply wfg_map. Qed.
Lemma clear_st : forall b G i g vs, st b G g vs -> st b G (clearMap i g) vs.
Proof.
  intros b G i g vs (W & H & F). pose proof (clear_step b i g) as S. split; [now apply clear_wfg|]. split; [exact (has_step _ _ _ _ _ S H)|eapply hasL_step; eauto].
Qed.
Lemma clear_noLocal : forall i g j k, cLookup (mapOf g j) "" k = None \/ j = i -> cLookup (mapOf (clearMap i g) j) "" k = None.
Proof.
  intros i g j k H. unfold clearMap. destruct (Nat.eq_dec j i) as [->|N].
  - destruct (Nat.lt_ge_cases i (len g)) as [L|L].
    + rewrite putMap_same by auto. rewrite clearLocal_lookup. reflexivity.
    + unfold mapOf. rewrite nth_overflow; [reflexivity|]. rewrite putMap_len. exact L.
  - rewrite putMap_other by auto. destruct H; [auto|contradiction].
Qed.
Lemma fold_clear : forall b G ws vs g, st b G g vs ->
  let g' := fold_left (fun g v => clearMap (vcons v) g) ws g in
  step b g g' /\ st b G g' vs /\ (forall v, In v ws \/ noLocal g v -> noLocal g' v).
Proof.
  intros b G. induction ws as [|w ws IH]; intros vs g T; cbn [fold_left].
  - cbn. split; [apply step_refl|]. split; auto. intros v [[]|N]; auto.
  - destruct (IH vs (clearMap (vcons w) g) (clear_st b G (vcons w) g vs T)) as (S & T' & N). cbn in *. split; [eapply step_trans; [apply clear_step|exact S]|].
    split; auto. intros v I. apply N. destruct I as [[->|I]|I]; auto.
    + right. intros k. apply clear_noLocal. auto.
    + right. intros k. apply clear_noLocal. left. apply I.
Qed.

Hypothesis Hall : forall n s, StructNonExtern r n = Ok s -> sucStruct r q false s /\ (q n = true -> sucStruct r q true s).

Lemma structure_post : forall b G gen s, (forall vs g, st b G g vs -> post b G g (gen s (members_of s) vs g)) ->
  forall g, st b G g [] -> structPost b G g (structureWith ords gen s g).
Proof.
  intros b G gen s GN g T. unfold structureWith. destruct (cloneGlobal_step b G g [] T) as (c & g1 & -> & S1 & T1 & H1). cbn [bind].
  destruct (newSlice [] g1) as [dd g2] eqn:EN. assert (M2 : maps g2 = maps g1 /\ cur g2 = cur g1) by (inversion EN; auto). destruct M2 as (M2 & C2).
  set (v0 := mkVec dd c).
  assert (T2 : st b G g2 [v0]).
  { pose proof (st_same b G g1 g2 [] M2 C2 T1) as (W2 & H2 & _). split; auto. split; auto. constructor; [|constructor].
    exact (has_step b G g1 g2 c (step_same b g1 g2 M2) H1). }
  specialize (GN [v0] g2 T2). destruct (gen s (members_of s) [v0] g2) as [[vs g3]|e|m|]; cbn [bind]; try exact GN; try exact I.
  destruct GN as (S3 & T3). cbn zeta. unfold structPost. destruct (fold_clear b G vs vs (clearMap (cur g3) g3) (clear_st b G _ _ _ T3)) as (S4 & T4 & N4).
  split; [|split].
  - eapply step_trans; [exact S1|]. eapply step_trans; [apply (step_same b g1 g2 M2)|]. eapply step_trans; [exact S3|]. eapply step_trans; [apply clear_step|exact S4].
  - exact T4.
  - apply Forall_forall. intros v I. apply N4. auto.
Qed.

Lemma gmembers_post : forall n strct b G ms, (forall m, In m ms -> sucMember r q b strct m) -> forall vs g, st b G g vs ->
  post b G g (gmembers grow ords sel r n strct ms vs g).
Proof.
  induction n as [|n IH]; intros strct b G ms F vs g T; [exact I|]. cbn [gmembers]. apply members_post; auto. intros m Im g' T'.
  apply gmember_post; auto.
  - intros n0 s E b0 G0 g0 Q T0. destruct (Hall n0 s E) as (A & B). apply structure_post; auto. intros vs0 h Th. apply IH; auto.
    destruct b0; [apply B; auto|apply A].
  - intros c (nm & tag & ln & cs & -> & Ic) vs0 h Th. apply IH; auto. destruct (sucMember_union _ _ _ _ _ _ _ _ (F _ Im)) as (_ & _ & _ & FM). eauto.
Qed.

Lemma suites_post : forall n ss, (forall s, In s ss -> sucStruct r q false s) -> forall g, wfg g -> forall e, suites grow ords sel r n ss g <> Err e.
Proof.
  intros n. induction ss as [|s ss IH]; intros F g W e; cbn [suites]; [discriminate|].
  assert (F' : forall s, In s ss -> sucStruct r q false s) by (intros; apply F; now right).
  destruct (Extern s); [now apply IH|]. destruct (newMap NewConstraints g) as [c g1] eqn:E. destruct (newMap_spec _ _ _ _ E) as (Ec & (M & C & _) & _).
  assert (T : st false (fun _ _ => None) (setCur c g1) []).
  { split; [unfold wfg; cbn; rewrite M; apply Forall_app; split; auto; constructor; [apply goMap_new|constructor]|]. split; [|constructor].
    split; [cbn; unfold len; cbn; rewrite M, app_length; cbn; lia|discriminate]. }
  pose proof (structure_post false (fun _ _ => None) (gmembers grow ords sel r n) s) as SP.
  assert (X : structPost false (fun _ _ => None) (setCur c g1) (structure grow ords sel r n s (setCur c g1))).
  { apply SP; auto. intros vs h Th. assert (Fs : sucStruct r q false s) by (apply F; now left). apply gmembers_post; auto. }
  destruct (structure grow ords sel r n s (setCur c g1)) as [[vs g2]|x|x|]; cbn in X; cbn [bind]; try discriminate; [|contradiction].
  destruct X as (_ & (W2 & _) & _). destruct (suites grow ords sel r n ss g2) as [[rest g3]|x|x|] eqn:ES; cbn; try discriminate.
  now apply IH in ES.
Qed.
End Succeed.

Lemma sucMember_false : forall r q b s m, sucMember r q b s m -> sucMember r q false s m.
Proof.
  intros r q b s. apply (member_ind' (fun m => sucMember r q b s m -> sucMember r q false s m)); cbn; auto.
  - intros nm t. destruct t as [sz [l|]| | | |n|e i|e len]; cbn; auto.
    + unfold knownStruct. intuition discriminate.
    + destruct len as [[f|k]|]; cbn; auto. unfold refIn. intuition discriminate.
  - intros nm tag len cs IH (A & B & C & D). split; auto. split; [intros; discriminate|]. split.
    { destruct len as [[f|k]|]; cbn in *; auto. intros; discriminate. }
    clear -IH D. induction cs as [|[o ms] cs IHc]; auto. destruct D as (D & D'). inversion IH as [|? ? I1 I2]; subst. split; [|apply IHc; auto]. cbn in I1. clear -I1 D.
    induction ms as [|m ms IHm]; auto. destruct D as (D & D'). inversion I1; subst. split; [auto|]. apply IHm; auto.
Qed.

(** No error: the generator returns a corpus, panics or does not return. *)
Theorem files_no_error : forall grow ords sel os fs r q, (forall k, goodOrders (ords k)) -> (forall n vs v, In v (sel n vs) -> In v vs) ->
  all_valid os -> NewResolverFiles os fs = Ok r -> sucFiles r q fs ->
  forall n rn e, GenerateFiles grow ords sel os n fs rn <> Err e.
Proof.
  intros grow ords sel os fs r q HO HS V ER FF n rn e H. unfold GenerateFiles in H. rewrite ER in H. cbn [bind] in H.
  assert (HF : forall f s, In f fs -> In s (fstructs f) -> sucStruct r q false s).
  { intros f s If Is m Im. eapply sucMember_false. eapply FF; eauto. }
  assert (HA : forall n s, StructNonExtern r n = Ok s -> sucStruct r q false s /\ (q n = true -> sucStruct r q true s)).
  { intros n0 s E. unfold StructNonExtern in E. destruct (Struct r n0) as [s'|] eqn:ES; [|discriminate]. destruct (Extern s') eqn:EX; [discriminate|].
    inversion E; subst s'. unfold NewResolverFiles in ER. destruct (addFiles_answers _ _ _ _ _ V ER) as (A & _). apply A in ES; auto.
    destruct ES as [ES|(f & If & Is & N)]; [discriminate|]. split; [eauto|]. intros Q. specialize (FF f s If Is). rewrite N, Q in FF. exact FF. }
  destruct (suites grow ords sel r n (flat_map fstructs fs) (mkG [] 0 [] rn 0)) as [[ss g]|x|x|] eqn:ES; cbn in H; try discriminate.
  eapply (suites_post grow ords HO sel HS r q HA n); [| |exact ES].
  - intros s Is. apply in_flat_map in Is. destruct Is as (f & If & Is). eauto.
  - constructor.
Qed.

(** Together with the conditions for termination: a corpus. *)
Theorem files_succeed : forall grow ords sel os fs rn r rank q, (forall k, goodOrders (ords k)) -> (forall n vs v, In v (sel n vs) -> In v vs) ->
  all_valid os -> NewResolverFiles os fs = Ok r -> finFiles r rank fs -> sucFiles r q fs -> zeroAgain (draws rn) ->
  exists N c, forall n, N <= n -> GenerateFiles grow ords sel os n fs rn = Ok c.
Proof.
  intros grow ords sel os fs rn r rank q HO HS V ER FF FS Z.
  destruct (files_finish grow ords sel os fs rn r rank HO V ER FF Z) as (N & x & E & [(c & ->)|(e & ->)]); [eauto|].
  exfalso. eapply (files_no_error grow ords sel os fs r q); eauto.
Qed.
