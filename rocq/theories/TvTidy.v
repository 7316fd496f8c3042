(** The generator keeps its heap of constraint maps in order: all maps are Go
    maps, and all vectors have a map. *)
From Coq Require Import ZArith String List Bool Lia Arith Permutation.
From Verif Require Import Base Ast IntervalsModel InspectModel TvModel TvConstraints TvHeap TvFacts TvSucceed.
Import ListNotations.
Open Scope string_scope.
Open Scope list_scope.
Open Scope nat_scope.

Section Frame.
Variable grow : nat -> nat -> nat.
Variable ords : nat -> uorders.
Hypothesis Hords : forall n, goodOrders (ords n).
Variable sel : nat -> list vec -> list vec.
Hypothesis Hsel : forall n vs v, In v (sel n vs) -> In v vs.
Variable r : resolver.

(** All maps are Go maps; the current map and those of [vs] exist. *)
Definition tidy (g : gst) (vs : list vec) : Prop := wfg g /\ cur g < len g /\ Forall (validV g) vs.
Definition out (g : gst) (x : outcome (list vec * gst)) : Prop :=
  match x with Ok (vs, g') => len g <= len g' /\ tidy g' vs | _ => True end.

Lemma valid_more : forall g g' vs, len g <= len g' -> Forall (validV g) vs -> Forall (validV g') vs.
Proof. intros g g' vs L F. eapply Forall_impl; [|exact F]. unfold validV. cbn. intros; lia. Qed.
Lemma tidy_same : forall g g' vs, maps g' = maps g -> cur g' = cur g -> tidy g vs -> tidy g' vs.
Proof. intros g g' vs M C (W & H & F). unfold tidy, wfg, validV, len. rewrite M, C. auto. Qed.
Lemma tidy_sub : forall g vs vs', (forall v, In v vs' -> In v vs) -> tidy g vs -> tidy g vs'.
Proof. intros g vs vs' I (W & H & F). split; auto. split; auto. rewrite Forall_forall in *. auto. Qed.
Lemma out_ok : forall g vs, tidy g vs -> out g (Ok (vs, g)).
Proof. intros. cbn. auto. Qed.
Lemma out_len : forall g g1 x, len g <= len g1 -> out g1 x -> out g x.
Proof. intros g g1 [[vs g']|e|m|] L P; cbn in *; auto. destruct P. split; auto. lia. Qed.
Lemma out_bind : forall g x (k : list vec * gst -> outcome (list vec * gst)), out g x ->
  (forall vs g1, len g <= len g1 -> tidy g1 vs -> out g1 (k (vs, g1))) -> out g (bind x k).
Proof. intros g [[vs g']|e|m|] k P K; cbn in *; auto. destruct P as (S & T). eapply out_len; eauto. Qed.
Lemma out_plain : forall g x, tidy g [] -> match x with Ok (w, g') => maps g' = maps g /\ cur g' = cur g /\ Forall (fun v => vcons v = cur g) w | _ => True end -> out g x.
Proof.
  intros g [[w g']|e|m|] T P; cbn in *; auto. destruct P as (M & C & F). pose proof (tidy_same _ _ _ M C T) as (W & H & _).
  split; [unfold len; rewrite M; auto|]. split; auto. split; auto. eapply Forall_impl; [|exact F]. cbn. intros v E. unfold validV. rewrite E, <- C. exact H.
Qed.

Lemma clone_tidy : forall i g vs, tidy g vs -> exists j g', cloneMap ords i g = Ok (j, g') /\ len g <= len g' /\ tidy g' vs /\ j < len g' /\ cur g' = cur g.
Proof.
  intros i g vs (W & H & F). destruct (cloneMap_spec ords Hords i g W) as (j & g' & c & E & J & (M & C & _) & MJ & W' & LK).
  exists j, g'. assert (L : len g' = S (len g)) by (unfold len; rewrite M, app_length; cbn; lia). split; auto. split; [lia|]. split.
  - split; auto. split; [rewrite C; lia|]. eapply valid_more; [|exact F]. lia.
  - split; auto. unfold len in *. lia.
Qed.
Lemma locreate_tidy : forall i f v g vs, tidy g vs -> i < len g -> exists u g', lookupOrCreate i f v g = Ok (u, g') /\ len g = len g' /\ tidy g' vs /\ cur g' = cur g.
Proof.
  intros i f v g vs (W & H & F) L. destruct (locreate_spec i f v g W L) as (u & c & E & GM & _). exists u, (putMap i c g).
  assert (X : len (putMap i c g) = len g) by (unfold len; apply putMap_len). split; auto. split; auto. split; [|reflexivity].
  split; [now apply putMap_wfg|]. split; [rewrite X; exact H|]. eapply valid_more; [|exact F]. lia.
Qed.
Lemma crossOne_out : forall u bs g, tidy g (u :: bs) -> out g (crossOne grow ords u bs g).
Proof.
  intros u. induction bs as [|w bs IH]; intros g T; cbn [crossOne]; [apply out_ok; eapply tidy_sub; [|exact T]; intros ? []|].
  destruct (mergeMaps ords (vcons u) (vcons w) g) as [[m g1]|e|e|] eqn:E; cbn [bind]; try exact I. destruct T as (W & H & F).
  destruct (mergeMaps_ok ords Hords _ _ _ _ _ W E) as (Em & c & (M1 & C1 & _) & _ & W1 & _).
  destruct (appendS grow (vdata u) (readS g1 (vdata w)) g1) as [dd g2] eqn:EA. destruct (appendS_maps grow _ _ _ _ _ EA) as (M2 & C2).
  assert (L : len g2 = S (len g)) by (unfold len; rewrite M2, M1, app_length; cbn; lia).
  assert (T2 : tidy g2 (u :: bs)).
  { split; [unfold wfg; rewrite M2; exact W1|]. split; [rewrite C2, C1; lia|]. eapply valid_more with (g := g); [lia|]. inversion F as [|? ? Fu F']; subst. inversion F'; subst. constructor; auto. }
  eapply out_len with (g1 := g2); [lia|]. apply out_bind; [now apply IH|]. intros rest g3 L3 (W3 & H3 & F3). apply out_ok. split; auto. split; auto.
  constructor; auto. unfold validV. cbn. unfold len in *. lia.
Qed.
Lemma cross_out : forall a bs g, tidy g (a ++ bs) -> out g (cross grow ords a bs g).
Proof.
  induction a as [|u a IH]; intros bs g T; cbn [cross]; [apply out_ok; eapply tidy_sub; [|exact T]; intros ? []|].
  apply out_bind.
  - apply crossOne_out. eapply tidy_sub; [|exact T]. intros v [<-|I]; [now left|]. right. apply in_or_app. auto.
  - intros p g1 L1 (W1 & H1 & F1). apply out_bind.
    + apply IH. split; auto. split; auto. eapply valid_more; [exact L1|]. destruct T as (_ & _ & F). now inversion F.
    + intros q g2 L2 (W2 & H2 & F2). apply out_ok. split; auto. split; auto. apply Forall_app. split; auto. eapply valid_more; eauto.
Qed.
Lemma prepend_out : forall v mvs g l g', prepend grow v mvs g = (l, g') -> tidy g mvs -> maps g' = maps g /\ tidy g' l.
Proof.
  intros v. induction mvs as [|mv mvs IH]; intros g l g' H T; cbn [prepend] in H; [inversion H; subst; auto|].
  destruct (appendS grow (vdata mv) (readS g (vdata v)) g) as [dd g1] eqn:E. destruct (prepend grow v mvs g1) as [rest g2] eqn:E2.
  inversion H; subst. destruct (appendS_maps grow _ _ _ _ _ E) as (M & C). pose proof (tidy_same _ _ _ M C T) as T1.
  destruct (IH g1 rest g' E2) as (M2 & T2); [eapply tidy_sub; [|exact T1]; intros; now right|].
  split; [congruence|]. destruct T2 as (W2 & H2 & F2). split; auto. split; auto. constructor; auto. unfold validV, len in *. cbn. rewrite M2.
  destruct T1 as (_ & _ & F1). inversion F1; auto.
Qed.
Lemma select_out : forall vs g x g', select sel vs g = (x, g') -> tidy g vs -> maps g' = maps g /\ tidy g' x.
Proof.
  intros vs g x g' H T. unfold select in H. inversion H; subst. split; [reflexivity|]. apply (tidy_same g); auto. eapply tidy_sub; [|exact T]. intros. eapply Hsel; eauto.
Qed.
Lemma lenconstrain_out : forall f vs g, tidy g vs -> out g (lenconstrain ords f vs g).
Proof.
  intros f. induction vs as [|v vs IH]; intros g T; cbn [lenconstrain]; [now apply out_ok|].
  destruct (clone_tidy (vcons v) g (v :: vs) T) as (c & g1 & -> & L1 & T1 & J1 & C1). cbn [bind].
  destruct (locreate_tidy c f (Z.of_nat (slen (vdata v))) g1 (v :: vs) T1 J1) as (u & g2 & -> & L2 & T2 & C2). cbn [bind].
  eapply out_len with (g1 := g2); [lia|]. apply out_bind; [apply IH; eapply tidy_sub; [|exact T2]; intros; now right|].
  intros rest g3 L3 (W3 & H3 & F3). apply out_ok. split; auto. split; auto. destruct (u =? _)%Z; auto. constructor; auto. unfold validV. cbn. lia.
Qed.

Lemma randomIn_tidy : forall n s g x g' vs, randomIn n s g = Ok (x, g') -> tidy g vs -> tidy g' vs /\ maps g' = maps g /\ cur g' = cur g.
Proof.
  intros n s g x g' vs H T. pose proof (randomIn_maps n s g) as R. rewrite H in R. destruct R as (M & C). split; auto. eapply tidy_same; eauto.
Qed.
Lemma intType_out : forall n nm sz cst g, tidy g [] -> out g (intType r n nm sz cst g).
Proof.
  intros n nm sz cst g T. apply out_plain; auto. unfold intType. destruct (cLookup _ _ _).
  - cbn [bind]. destruct (vectorOf _ g) as [v g2] eqn:E. apply vectorOf_maps in E. cbn. intuition.
  - destruct cst as [l|].
    + destruct (Intervals r l) as [s|e|e|]; cbn [bind]; auto. pose proof (randomIn_maps n s g) as R.
      destruct (randomIn n s g) as [[x g1]|e|m|]; cbn [bind]; auto. destruct (vectorOf _ g1) as [v g2] eqn:E. apply vectorOf_maps in E.
      destruct E as (E1 & E2 & E3). destruct R as (R1 & R2). split; [congruence|]. split; [congruence|]. constructor; [congruence|constructor].
    + cbn [bind]. destruct (randint sz g) as [bs g1] eqn:ER. destruct (vectorOf _ g1) as [v g2] eqn:E. apply vectorOf_maps in E.
      unfold randint in ER. apply (randRead_maps grow) in ER. destruct E as (E1 & E2 & E3). destruct ER as (R1 & R2). split; [congruence|]. split; [congruence|].
      constructor; [congruence|constructor].
Qed.
Lemma arrayLoop_out : forall elem, (forall g, tidy g [] -> out g (elem g)) -> forall n vs g, tidy g vs -> out g (arrayLoop grow ords sel elem n vs g).
Proof.
  intros elem E. induction n as [|n IH]; intros vs g T; cbn [arrayLoop]; [now apply out_ok|].
  apply out_bind; [apply E; eapply tidy_sub; [|exact T]; intros ? []|]. intros w g1 L1 (W1 & H1 & F1). apply out_bind.
  - apply cross_out. split; auto. split; auto. apply Forall_app. split; auto. eapply valid_more; [exact L1|]. apply T.
  - intros v1 g2 L2 T2. destruct (select sel v1 g2) as [v2 g3] eqn:ES. destruct (select_out _ _ _ _ ES T2) as (M3 & T3).
    eapply out_len with (g1 := g3); [unfold len; rewrite M3; auto|]. now apply IH.
Qed.

Lemma extend_out : forall mem, (forall g, tidy g [] -> out g (mem g)) -> forall vs g, tidy g vs -> out g (extend grow mem vs g).
Proof.
  intros mem M. induction vs as [|v vs IH]; intros g T; cbn [extend]; [now apply out_ok|].
  pose proof T as (W & H & F). inversion F as [|? ? Fv F']; subst.
  apply (out_len g (setCur (vcons v) g)); [apply Nat.le_refl|]. apply out_bind; [apply M; split; [exact W|split; [exact Fv|constructor]]|].
  intros mvs g1 L1 T1. destruct (prepend grow v mvs g1) as [e g2] eqn:E. destruct (prepend_out _ _ _ _ _ E T1) as (M2 & T2).
  assert (L2 : len g1 = len g2) by (unfold len; rewrite M2; auto). change (len (setCur (vcons v) g)) with (len g) in L1.
  apply (out_len g1 g2); [lia|]. apply out_bind.
  - apply IH. destruct T2 as (W2 & H2 & _). split; auto. split; auto. eapply valid_more; [|exact F']. lia.
  - intros rest g3 L3 (W3 & H3 & F3). apply out_ok. split; auto. split; auto. apply Forall_app. split; auto. eapply valid_more; [exact L3|]. apply T2.
Qed.
Lemma members_out : forall mem ms, (forall m, In m ms -> forall g, tidy g [] -> out g (mem m g)) ->
  forall vs g, tidy g vs -> out g (membersLoop grow sel mem ms vs g).
Proof.
  intros mem. induction ms as [|m ms IH]; intros M vs g T; cbn [membersLoop]; [now apply out_ok|].
  apply out_bind; [apply IH; auto; intros; apply M; auto; now right|]. intros vs1 g1 S1 T1.
  apply out_bind; [apply extend_out; auto; apply M; now left|]. intros ext g2 S2 T2. destruct (select sel ext g2) as [x g3] eqn:E.
  destruct (select_out _ _ _ _ E T2) as (M3 & T3). split; auto. unfold len. rewrite M3. auto.
Qed.
Lemma unionLoop_out : forall fuel gen tag base bs, (forall c vs g, tidy g vs -> out g (gen c vs g)) ->
  forall g, tidy g [] -> out g (unionLoop ords fuel gen tag base bs g).
Proof.
  intros fuel gen tag base bs GB. induction bs as [|x bs IH]; intros g T; cbn [unionLoop]; [now apply out_ok|].
  destruct (clone_tidy base g [] T) as (c & g1 & -> & L1 & T1 & J1 & C1). cbn [bind].
  destruct (randomIn fuel (bset x) (setCur c g1)) as [[y g3]|e|m|] eqn:ER; cbn [bind]; try exact I.
  assert (TS : tidy (setCur c g1) []) by (split; [apply T1|split; [exact J1|constructor]]).
  destruct (randomIn_tidy _ _ _ _ _ [] ER TS) as (T3 & M3 & C3).
  destruct (locreate_tidy (cur g3) tag (s64 y) g3 [] T3) as (u & g4 & -> & L4 & T4 & C4); [apply T3|]. cbn [bind].
  destruct (emptyVec g4) as [ev g5] eqn:E5. destruct (emptyVec_maps _ _ _ E5) as (M5 & C5 & V5).
  assert (L3 : len g1 = len g3) by (unfold len; rewrite M3; reflexivity). assert (L5 : len g4 = len g5) by (unfold len; rewrite M5; reflexivity).
  assert (T5 : tidy g5 [ev]).
  { pose proof (tidy_same _ _ _ M5 C5 T4) as (W & H & _). split; auto. split; auto. constructor; [|constructor]. unfold validV. rewrite V5, <- C5. exact H. }
  apply (out_len g g5); [lia|]. apply out_bind; [now apply GB|]. intros vs g6 S6 T6.
  apply out_bind; [apply IH; eapply tidy_sub; [|exact T6]; intros ? []|].
  intros rest g7 S7 (W7 & H7 & F7). apply out_ok. split; auto. split; auto. apply Forall_app. split; auto. eapply valid_more; [exact S7|]. apply T6.
Qed.
Section Struct.
Variable fuel : nat.
Variable callS : struct -> gst -> outcome (list vec * gst).
Hypothesis HcallS : forall s g, tidy g [] -> out g (callS s g).
Variable strct : struct.

Lemma field_out : forall t nm g, tidy g [] -> out g (field grow ords sel r fuel callS nm t g).
Proof.
  induction t as [sz cst| | | |n|e IH i|e IH ln]; intros nm g T; cbn [field].
  - now apply intType_out.
  - now apply intType_out.
  - apply out_plain; auto. destruct (emptyVec g) as [v g1] eqn:E. apply emptyVec_maps in E. cbn. intuition.
  - apply out_plain; auto. destruct (randnulterm 2 20 g) as [l g1] eqn:E. destruct (vectorOf l g1) as [v g2] eqn:E2. apply vectorOf_maps in E2. apply (randnulterm_maps grow) in E.
    destruct E as (R1 & R2). destruct E2 as (E1 & E2 & E3). split; [congruence|]. split; [congruence|]. constructor; [congruence|constructor].
  - destruct (StructNonExtern r n); cbn [bind]; try exact I. now apply HcallS.
  - destruct (emptyVec g) as [v g1] eqn:E. destruct (emptyVec_maps _ _ _ E) as (M1 & C1 & V1). destruct (Integer r i); cbn [bind]; try exact I.
    apply out_len with (g1 := g1); [unfold len; rewrite M1; auto|]. apply arrayLoop_out; auto.
    pose proof (tidy_same _ _ _ M1 C1 T) as (W & H & _). split; auto. split; auto. constructor; [|constructor]. unfold validV. rewrite V1, <- C1. exact H.
  - destruct (emptyVec g) as [v g1] eqn:E. destruct (emptyVec_maps _ _ _ E) as (M1 & C1 & V1).
    destruct (randbtw 1 20 g1) as [k g2] eqn:E2. apply randbtw_maps in E2. destruct E2 as (M2 & C2).
    assert (T2 : tidy g2 [v]).
    { pose proof (tidy_same g g2 [] ltac:(congruence) ltac:(congruence) T) as (W & H & _). split; auto. split; auto. constructor; [|constructor].
      unfold validV. rewrite V1. replace (cur g) with (cur g2) by congruence. exact H. }
    assert (L2 : len g <= len g2) by (unfold len; rewrite M2, M1; auto).
    destruct ln as [[f|e']|]; [|exact I|].
    + assert (J : vcons v < len g2) by (destruct T2 as (_ & _ & F2); inversion F2; auto).
      destruct (locreate_tidy (vcons v) f k g2 [v] T2 J) as (u & g3 & E3 & L3 & T3 & C3).
      change (out g ('(n, g3) <- lookupOrCreate (vcons v) f k g2;; arrayLoop grow ords sel (field grow ords sel r fuel callS "" e) (Z.to_nat n) [v] g3)).
      rewrite E3. cbn [bind]. apply out_len with (g1 := g3); [lia|]. apply arrayLoop_out; auto.
    + apply out_len with (g1 := g2); [lia|]. apply arrayLoop_out; auto.
Qed.
Lemma gmember_out : forall gen m, (forall c vs g, tidy g vs -> out g (gen c vs g)) ->
  forall g, tidy g [] -> out g (gmember grow ords sel r fuel callS strct gen m g).
Proof.
  intros gen m GN g T. destruct m as [nm t|nm tag ln cs| | |]; cbn [gmember].
  - now apply field_out.
  - destruct (NewBranches r strct tag cs) as [bs| | |]; cbn [bind]; try exact I.
    destruct (unionOptions bs _) as [opts|]; [|now apply out_ok].
    destruct (clone_tidy (cur g) g [] T) as (base & g1 & -> & L1 & T1 & J1 & C1). cbn [bind].
    apply (out_len g g1); [lia|]. apply out_bind; [now apply unionLoop_out|]. intros results g2 L2 T2.
    destruct ln as [[f|k]|]; [now apply lenconstrain_out|exact I|now apply out_ok].
  - apply out_plain; auto. destruct (emptyVec g) as [v g1] eqn:E. apply emptyVec_maps in E. cbn. intuition.
  - now apply out_ok.
  - apply out_plain; auto. destruct (emptyVec g) as [a g1] eqn:E. destruct (randbytes 1 7 g1) as [bs g2] eqn:E2. destruct (vectorOf bs g2) as [v g3] eqn:E3.
    apply emptyVec_maps in E. apply (randbytes_maps grow) in E2. apply vectorOf_maps in E3.
    destruct E as (A1 & A2 & A3), E2 as (B1 & B2), E3 as (D1 & D2 & D3). split; [congruence|]. split; [congruence|].
    constructor; [congruence|]. constructor; [congruence|constructor].
Qed.
End Struct.

Lemma clear_tidy : forall i g vs, tidy g vs -> tidy (clearMap i g) vs /\ len (clearMap i g) = len g.
Proof.
  intros i g vs (W & H & F). assert (X : len (clearMap i g) = len g) by (unfold len, clearMap; apply putMap_len). split; auto.
  split; [now apply clear_wfg|]. split; [rewrite X; exact H|]. eapply valid_more; [|exact F]. lia.
Qed.
Lemma fold_tidy : forall ws vs g, tidy g vs -> let g' := fold_left (fun g v => clearMap (vcons v) g) ws g in tidy g' vs /\ len g' = len g.
Proof.
  induction ws as [|w ws IH]; intros vs g T; cbn [fold_left]; [cbn; auto|]. destruct (clear_tidy (vcons w) g vs T) as (T1 & L1).
  destruct (IH vs _ T1) as (T2 & L2). cbn. split; auto. lia.
Qed.
Lemma structure_out : forall gen s, (forall vs g, tidy g vs -> out g (gen s (members_of s) vs g)) -> forall g, tidy g [] -> out g (structureWith ords gen s g).
Proof.
  intros gen s GN g T. unfold structureWith. pose proof T as (W & H & _).
  destruct (cloneGlobalMap_spec ords Hords (cur g) g W) as (c & g1 & cc & -> & J & (M & C & _) & _ & W1 & _). cbn [bind].
  assert (L1 : len g1 = S (len g)) by (unfold len; rewrite M, app_length; cbn; lia).
  destruct (newSlice [] g1) as [dd g2] eqn:EN. assert (M2 : maps g2 = maps g1 /\ cur g2 = cur g1) by (inversion EN; auto). destruct M2 as (M2 & C2).
  assert (L2 : len g2 = len g1) by (unfold len; rewrite M2; auto).
  assert (T2 : tidy g2 [mkVec dd c]).
  { split; [unfold wfg; rewrite M2; exact W1|]. split; [rewrite C2, C; lia|]. constructor; [|constructor]. unfold validV. cbn. unfold len in *. lia. }
  specialize (GN _ g2 T2). destruct (gen s (members_of s) [mkVec dd c] g2) as [[vs g3]|e|m|]; cbn [bind]; try exact I.
  destruct GN as (L3 & T3). destruct (clear_tidy (cur g3) g3 vs T3) as (T4 & L4). destruct (fold_tidy vs vs _ T4) as (T5 & L5). split; auto. lia.
Qed.
Lemma gmembers_out : forall n strct ms vs g, tidy g vs -> out g (gmembers grow ords sel r n strct ms vs g).
Proof.
  induction n as [|n IH]; intros strct ms vs g T; [exact I|]. cbn [gmembers]. apply members_out; auto. intros m Im g' T'.
  apply gmember_out; auto. intros s g0 T0. apply structure_out; auto.
Qed.

Theorem members_keep : forall n strct ms vs g res g', wfg g -> cur g < len g -> Forall (fun v => vcons v < len g) vs ->
  gmembers grow ords sel r n strct ms vs g = Ok (res, g') -> wfg g' /\ cur g' < len g' /\ Forall (fun v => vcons v < len g') res.
Proof. intros n strct ms vs g res g' W C F H. pose proof (gmembers_out n strct ms vs g (conj W (conj C F))) as P. rewrite H in P. apply P. Qed.

(** A union [with length f]: every vector records the length of the union. *)
Theorem union_recorded : forall n strct u tag f cs g res g', wfg g -> cur g < len g ->
  gmember grow ords sel r n (structure grow ords sel r n) strct (fun c => gmembers grow ords sel r n strct (ucase_members c))
    (MUnion u tag (Some (LRef f)) cs) g = Ok (res, g') ->
  Forall (fun v => cLookupRef (mapOf g' (vcons v)) f = Some (Z.of_nat (slen (vdata v)))) res.
Proof.
  intros n strct u tag f cs g res g' W C H. cbn [gmember] in H.
  destruct (NewBranches r strct tag cs) as [bs| | |]; try discriminate. cbn [bind] in H.
  destruct (unionOptions bs _) as [opts|]; [|inversion H; subst; constructor].
  assert (T : tidy g []) by (split; [exact W|split; [exact C|constructor]]).
  destruct (clone_tidy (cur g) g [] T) as (base & g1 & E1 & L1 & T1 & J1 & C1). rewrite E1 in H. cbn [bind] in H.
  pose proof (unionLoop_out n (fun c => gmembers grow ords sel r n strct (ucase_members c)) tag base opts
    (fun c vs h Th => gmembers_out n strct (ucase_members c) vs h Th) g1 T1) as U.
  destruct (unionLoop _ _ _ _ _ _ _) as [[rs g2]| | |] eqn:E2; try discriminate. cbn [bind] in H. destruct U as (L2 & W2 & _ & F2).
  destruct (lenconstrain_spec ords Hords f rs g2 W2 F2) as (res' & g3 & E3 & _ & _ & _ & _ & _ & F3). rewrite E3 in H. inversion H; subst.
  clear - F3. induction F3; constructor; auto. destruct H as (A & _ & B & _). rewrite A. auto.
Qed.
End Frame.
