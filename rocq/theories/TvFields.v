(** Generation of a field. *)
From Coq Require Import ZArith String List Bool Lia Arith ZifyBool ZifyNat Permutation.
From Verif Require Import Base Ast IntervalsModel InspectModel InspectSpec BranchProofs GoLang GenModel GenCheck WireSpec WireProofs WireFacts
  TvModel TvConstraints TvHeap TvFacts TvClass TvGood TvLeaf TvFrame.
Import ListNotations.
Open Scope string_scope.
Open Scope list_scope.
Open Scope nat_scope.

Definition nobody (_ : nat) : Prop := False.
Definition nothing (_ : string) : Prop := False.
Lemma frame_none : forall O P g g', frame nobody nothing g g' -> frame O P g g'.
Proof. intros O P g g' F. eapply frame_weak; [exact F| |]; [intros i _ []|intros k []]. Qed.
Lemma frame_map : forall P g g' i, frame nobody P g g' -> i < nmaps g -> mapOf g' i = mapOf g i.
Proof. intros P g g' i F L. apply (fr_own _ _ _ _ F); auto. Qed.

Section Fields.
Variable camel : string -> string.
Variable r : resolver.
Variable lenient : Prop.
Variable lim : Z.
Variable gr sg : string -> bool.
Variable grow : nat -> nat -> nat.
Variable ords : nat -> uorders.
Hypothesis Hords : forall n, goodOrders (ords n).
Variable sel : nat -> list vec -> list vec.
Hypothesis Hsel : forall n vs, exists rest, Permutation (sel n vs ++ rest) vs.
Notation cv := (Constant r).
Notation sv := (Struct r).
Notation Enc := (enc camel cv sv lenient).
Notation EncN := (encN camel cv sv lenient).
Notation EncMs := (encMs camel cv sv lenient).

(** * Nested structs *)
Definition structGood (s : struct) (c : cons) (d : bytes) : Prop :=
  (blen d < lim)%Z -> forall cenv fs pos tail, world camel s cenv fs -> agreeG camel (scontexts s) cenv c ->
    (greedyMs gr (members_of s) = true -> tail = []) -> exists fs', EncMs cenv pos (members_of s) fs d tail fs'.
Definition structSpec (s : struct) (call : gst -> outcome (list vec * gst)) : Prop :=
  forall g vs g', inv g -> call g = Ok (vs, g') ->
  frame nobody nothing g g' /\ nmaps g <= cur g' /\ noLocals (mapOf g' (cur g')) /\ safe g' (map vdata vs) /\
  (sg (sname s) = true -> List.length vs <= 1) /\
  Forall (fun v => okS g' (vdata v) /\ nbufs g <= sbuf (vdata v) /\ nmaps g <= vcons v < nmaps g' /\
    noLocals (mapOf g' (vcons v)) /\ extendsG (mapOf g (cur g)) (mapOf g' (vcons v)) /\
    structGood s (mapOf g' (vcons v)) (readS g' (vdata v))) vs.

Variable fuel : nat.
Variable callS : struct -> gst -> outcome (list vec * gst).
Hypothesis Hcall : forall nm s, StructNonExtern r nm = Ok s -> sname s = nm /\ (greedyMs gr (members_of s) = true -> gr nm = true) /\ structSpec s (callS s).

(** The bytes of a nested struct, seen from the enclosing one. *)
Lemma passes_ctx : forall cenv s, ctxWorld (scontexts s) cenv -> exists cenv', passes cenv s cenv' /\
  forall x, In x (scontexts s) -> alookup x cenv' = alookup x cenv.
Proof.
  intros cenv s. unfold passes. induction (scontexts s) as [|x l IH]; intros W.
  - exists []. split; [constructor|intros x []].
  - destruct IH as (ce & P & L); [intros y I; apply W; now right|]. destruct (W x) as (ty & cf & E & _); [now left|].
    exists ((x, VStruct ty cf) :: ce). split; [constructor; auto|]. intros y I. cbn [alookup].
    destruct (String.eqb_spec y x) as [->|N]; auto. apply L. destruct I; congruence.
Qed.
Lemma blank_world : forall cenv s, ctxWorld (scontexts s) cenv -> world camel s cenv (blank camel cv s).
Proof.
  intros cenv s W. split; auto. intros n I. unfold blank. rewrite map_map. cbn [fst].
  rewrite <- (map_map fst camel). apply in_map. unfold namesMs in I. apply in_flat_map in I as (m & Im & I).
  apply in_map_iff. 
  assert (Q : exists t, In (n, t) (allFields m)).
  { clear Im. revert I. induction m as [nm t|u tag len cs IH| | |] using member_ind'; cbn [fieldNames allFields]; try contradiction.
    - intros [<-|[]]. exists t. now left.
    - intros I. apply in_flat_map in I as ([l ms] & Ic & I). apply in_flat_map in I as (m & Im & I).
      rewrite Forall_forall in IH. specialize (IH _ Ic). cbn [ucase_members] in IH. rewrite Forall_forall in IH. destruct (IH _ Im I) as (t & J).
      exists t. apply in_flat_map. exists (UCase l ms). split; auto. apply in_flat_map. eauto. }
  destruct Q as (t & J). exists (n, t). split; auto. apply in_flat_map. eauto.
Qed.
Lemma enc_struct : forall ctxs nm s c d, StructNonExtern r nm = Ok s -> ctxOK r ctxs nm = true ->
  structGood s c d -> (blen d < lim)%Z -> forall cenv fs pos tail, ctxWorld ctxs cenv -> agreeG camel ctxs cenv c ->
  (greedyMs gr (members_of s) = true -> tail = []) -> exists v, Enc cenv pos fs (TStruct nm) v d tail.
Proof.
  intros ctxs nm s c d E C G L cenv fs pos tail W A GT. unfold StructNonExtern in E. unfold ctxOK in C.
  destruct (Struct r nm) as [s'|] eqn:ES; [|discriminate]. destruct (Extern s') eqn:EX; [discriminate|]. inversion E; subst s'.
  rewrite forallb_forall in C.
  assert (SUB : forall x, In x (scontexts s) -> In x ctxs) by (intros x I; now apply memb_In, C).
  assert (W' : ctxWorld (scontexts s) cenv) by (intros x I; auto).
  destruct (passes_ctx cenv s W') as (ce & P & LK).
  assert (W2 : ctxWorld (scontexts s) ce) by (intros x I; rewrite LK by auto; auto).
  destruct (G L ce (blank camel cv s) 0%Z tail) as (fs' & EN); auto.
  - now apply blank_world.
  - intros x k y I N K. rewrite LK by auto. apply A; auto.
  - eexists. econstructor; eauto.
Qed.

(** * Array elements *)
Section Elem.
Variable ctxs : list string.
Definition locals_in (c c' : cons) : Prop := forall k x, cLookup c "" k = Some x -> cLookup c' "" k = Some x.
Definition elemSpec (b : type) (el : gst -> outcome (list vec * gst)) : Prop :=
  forall g w g', inv g -> el g = Ok (w, g') ->
  frame nobody nothing g g' /\ (cur g' = cur g \/ nmaps g <= cur g') /\ List.length w <= 1 /\ locals_in (mapOf g' (cur g')) (mapOf g (cur g)) /\
  Forall (fun u => okS g' (vdata u) /\ nbufs g <= sbuf (vdata u) /\ vcons u < nmaps g' /\
    locals_in (mapOf g' (vcons u)) (mapOf g (cur g)) /\
    ((blen (readS g' (vdata u)) < lim)%Z -> forall cenv fs pos tail, ctxWorld ctxs cenv -> agreeG camel ctxs cenv (mapOf g' (vcons u)) ->
       exists v, Enc cenv pos fs b v (readS g' (vdata u)) tail)) w.

(** A single vector with the current map. *)
Lemma leaf_elem : forall b (el : gst -> outcome (list vec * gst)),
  (forall g w g', inv g -> el g = Ok (w, g') -> exists d g1 v, sameH g g1 /\ vectorOf d g1 = (v, g') /\ w = [v] /\
     forall cenv fs pos tail, exists x, Enc cenv pos fs b x d tail) -> elemSpec b el.
Proof.
  intros b el H g w g' I E. destruct (H _ _ _ I E) as (d & g1 & v & S & V & -> & X). clear H E.
  pose proof (frame_sameH nobody nothing g g1 I S) as F1. destruct S as (SM & SC & SB).
  destruct (vectorOf_spec nobody nothing d g1 v g' (fr_inv _ _ _ _ F1) V) as (F2 & OK & B2 & C2 & R2 & M2 & CU2 & N2).
  assert (F : frame nobody nothing g g') by (eapply frame_trans; eauto).
  assert (CC : cur g' = cur g) by congruence.
  assert (ME : mapOf g' (cur g) = mapOf g (cur g)) by (apply (frame_map _ _ _ _ F); apply I).
  split; auto. split; [left; congruence|]. split; [auto|]. split; [rewrite CC, ME; intros k x K; auto|]. constructor; auto.
  split; auto. split; [rewrite B2, SB; auto|]. rewrite C2, SC, ME. split; [rewrite M2, SM; apply I|]. split; [intros k x K; auto|].
  rewrite R2. intros _ cenv fs pos tail _ _. apply X.
Qed.

Lemma elem_spec : forall b, elemOK r gr sg ctxs b = true -> elemSpec b (field grow ords sel r fuel callS "" b).
Proof.
  intros b H. destruct b as [sz [l|]| | | |nm|b i|b o]; try discriminate.
  - apply leaf_elem. intros g w g' I E. cbn [field] in E. unfold intType in E. cbn [elemOK] in H.
    destruct (cLookup (mapOf g (cur g)) "" "") as [x|].
    + cbn [bind] in E. destruct (vectorOf (intbytes x sz) g) as [v g2] eqn:V. inversion E; subst.
      exists (intbytes x sz), g, v. split; [apply sameH_refl|]. split; auto. split; auto. intros.
      destruct (intbytes_any x sz H) as (y & B & L). exists (VInt y). constructor; auto. discriminate.
    + destruct (randint sz g) as [d g1] eqn:RI. cbn [bind] in E. destruct (vectorOf d g1) as [v g2] eqn:V. inversion E; subst.
      destruct (randint_spec _ _ _ _ H RI) as ((y & B) & L & S). exists d, g1, v. split; auto. split; auto. split; auto. intros.
      exists (VInt y). constructor; auto. discriminate.
  - apply leaf_elem. intros g w g' I E. cbn [field] in E. unfold intType in E.
    destruct (cLookup (mapOf g (cur g)) "" "") as [x|].
    + cbn [bind] in E. destruct (vectorOf (intbytes x 8) g) as [v g2] eqn:V. inversion E; subst.
      exists (intbytes x 8), g, v. split; [apply sameH_refl|]. split; auto. split; auto. intros.
      destruct (intbytes_any x 8 eq_refl) as (y & B & L). exists (VInt y). constructor; auto.
    + destruct (randint 8 g) as [d g1] eqn:RI. cbn [bind] in E. destruct (vectorOf d g1) as [v g2] eqn:V. inversion E; subst.
      destruct (randint_spec 8 _ _ _ eq_refl RI) as ((y & B) & L & S). exists d, g1, v. split; auto. split; auto. split; auto. intros.
      exists (VInt y). constructor; auto.
  - apply leaf_elem. intros g w g' I E. cbn [field] in E. unfold emptyVec in E. destruct (vectorOf [] g) as [v g1] eqn:V. inversion E; subst.
    exists [], g, v. split; [apply sameH_refl|]. split; auto. split; auto. intros. exists (VInt pos). constructor.
  - apply leaf_elem. intros g w g' I E. cbn [field] in E. destruct (randnulterm 2 20 g) as [d g1] eqn:RN.
    destruct (vectorOf d g1) as [v g2] eqn:V. inversion E; subst. destruct (randnulterm_spec 2 20 g d g1 ltac:(lia) RN) as ((s & -> & N) & S).
    exists (s ++ [0%Z]), g1, v. split; auto. split; auto. split; auto. intros. exists (VStr s). now constructor.
  - cbn [elemOK] in H. apply andb_true_iff in H as (H & HC). apply andb_true_iff in H as (HS & HG).
    intros g w g' I E. cbn [field] in E. destruct (StructNonExtern r nm) as [s| | |] eqn:ES; try discriminate. cbn [bind] in E.
    destruct (Hcall nm s ES) as (SN & GN & SP). destruct (SP g w g' I E) as (F & C & NL & S & L1 & G).
    split; auto. split; auto. split; [apply L1; congruence|]. split; [intros k x K; rewrite NL in K; discriminate|].
    eapply Forall_impl; [|exact G]. intros v (V1 & V2 & V3 & V4 & V5 & V6). split; auto. split; auto. split; [lia|].
    split; [intros k x K; rewrite V4 in K; discriminate|]. intros L cenv fs pos tail W A.
    eapply enc_struct; eauto. intros GM. apply GN in GM. rewrite GM in HG. discriminate.
Qed.

(** * Arrays *)
Section Array.
Variable b0 i1 L0 : nat.
Variable c1 : cons.
Variable b : type.
(** [k] elements so far. *)
Definition acc (k : nat) (g : gst) (u : vec) : Prop :=
  okS g (vdata u) /\ b0 <= sbuf (vdata u) /\ vcons u < nmaps g /\ (vcons u = i1 \/ L0 <= vcons u) /\
  extends c1 (mapOf g (vcons u)) /\ locals_in (mapOf g (vcons u)) c1 /\
  ((blen (readS g (vdata u)) < lim)%Z -> forall cenv fs pos tail, ctxWorld ctxs cenv -> agreeG camel ctxs cenv (mapOf g (vcons u)) ->
     exists vs, List.length vs = k /\ EncN cenv pos fs b vs (readS g (vdata u)) tail).
Lemma acc_frame : forall k g g' u, frame nobody nothing g g' -> acc k g u -> acc k g' u.
Proof.
  intros k g g' u F (A1 & A2 & A3 & A4 & A5 & A6 & A7). destruct (keep_ok _ _ _ _ (fr_bufs _ _ _ _ F) (proj1 A1) A1) as (K1 & K2 & _).
  unfold acc. rewrite (frame_map _ _ _ _ F A3), K2. pose proof (fr_maps _ _ _ _ F). repeat split; auto; try apply K1. lia.
Qed.

Lemma merge_compat : forall i j g m g', wfg g -> mergeMaps ords i j g = Ok (m, g') -> compatible (mapOf g i) (mapOf g j).
Proof.
  intros i j g m g' W H. unfold mergeMaps in H. destruct (cMerge _ _ _ _) as [c| | |] eqn:E; try discriminate.
  destruct (merge_spec (ords (calls g)) (ords (S (calls g))) _ _ (Hords _) (Hords _) (wfg_map g i W) (wfg_map g j W)) as (C & _).
  apply C. eauto.
Qed.
Lemma cross_small : forall w v g e g', List.length w <= 1 -> List.length v <= 1 -> cross grow ords w v g = Ok (e, g') ->
  e = [] /\ g' = g \/ exists u a m g1 d, w = [u] /\ v = [a] /\ mergeMaps ords (vcons u) (vcons a) g = Ok (m, g1) /\
    appendS grow (vdata u) (readS g1 (vdata a)) g1 = (d, g') /\ e = [mkVec d m].
Proof.
  intros [|u [|? ?]] [|a [|? ?]] g e g' L1 L2 H; cbn [List.length] in *; try lia; cbn [cross crossOne bind] in H.
  - inversion H; auto.
  - inversion H; auto.
  - inversion H; auto.
  - destruct (mergeMaps ords (vcons u) (vcons a) g) as [[m g1]| | |] eqn:M; try discriminate. cbn [bind] in H.
    destruct (appendS grow (vdata u) (readS g1 (vdata a)) g1) as [d g2] eqn:A. cbn in H. inversion H; subst.
    right. exists u, a, m, g1, d. repeat split; auto.
Qed.

Lemma arrayLoop_spec : forall el, elemSpec b el -> forall n k v g v' g', inv g -> L0 <= nmaps g -> b0 <= nbufs g ->
  locals_in (mapOf g (cur g)) c1 -> List.length v <= 1 -> Forall (acc k g) v ->
  arrayLoop grow ords sel el n v g = Ok (v', g') ->
  frame nobody nothing g g' /\ (cur g' = cur g \/ nmaps g <= cur g') /\ List.length v' <= 1 /\ Forall (acc (n + k) g') v'.
Proof.
  intros el SP. induction n as [|n IH]; intros k v g v' g' I LG BG LC LV FV H; cbn [arrayLoop] in H.
  - inversion H; subst. split; [now apply frame_refl|]. auto.
  - destruct (el g) as [[w g1]| | |] eqn:E1; try discriminate. cbn [bind] in H.
    destruct (cross grow ords w v g1) as [[e g2]| | |] eqn:E2; try discriminate. cbn [bind] in H. unfold select in H.
    destruct (SP _ _ _ I E1) as (F1 & C1 & LW & LC1 & FW).
    pose proof (fr_inv _ _ _ _ F1) as I1. pose proof (fr_maps _ _ _ _ F1) as M1. pose proof (proj1 (fr_bufs _ _ _ _ F1)) as B1.
    assert (ST : frame nobody nothing g g2 /\ cur g2 = cur g1 /\ List.length e <= 1 /\ Forall (acc (S k) g2) e /\ mapOf g2 (cur g1) = mapOf g1 (cur g1)).
    { destruct (cross_small _ _ _ _ _ LW LV E2) as [(-> & ->)|(u & a & m & g3 & d & -> & -> & EM & EA & ->)].
      - repeat (split; [solve [auto]|]). auto.
      - inversion FW as [|? ? (U1 & U2 & U3 & U4 & U5) _]; subst. inversion FV as [|? ? A _]; subst.
        apply (acc_frame k g g1 a F1) in A. destruct A as (A1 & A2 & A3 & A4 & A5 & A6 & A7).
        destruct (mergeMaps_ok ords Hords _ _ _ _ _ (proj1 I1) EM) as (-> & c & AM & MC & W3 & LK).
        pose proof (merge_compat _ _ _ _ _ (proj1 I1) EM) as CP.
        assert (NNc : nonneg c).
        { intros s0 k0 x0 K. rewrite LK in K. destruct I1 as (_ & _ & NN). destruct (cLookup (mapOf g1 (vcons u)) s0 k0) eqn:EU; [inversion K; subst; eapply NN; eauto|eapply NN; eauto]. }
        destruct (adds_frame nobody nothing g1 g3 [c] I1 AM W3) as (F3 & C3 & B3); [intros c' [<-|[]]; auto|].
        assert (U1' : okS g3 (vdata u)) by (unfold okS, capOf in *; rewrite B3; auto).
        destruct (append_spec grow _ _ _ _ _ U1' EA) as ((SM & SC & _ & _) & OD & RD & SL & BD & LB & KB & _).
        assert (RU : readS g3 (vdata u) = readS g1 (vdata u)) by (unfold readS; now rewrite B3).
        assert (RA : readS g3 (vdata a) = readS g1 (vdata a)) by (unfold readS; now rewrite B3).
        rewrite RU, RA in RD.
        assert (M2 : forall i, i < nmaps g1 -> mapOf g2 i = mapOf g1 i).
        { intros i Li. rewrite (mapOf_maps g3 g2 i SM). now apply (frame_map _ _ _ _ F3). }
        assert (F2 : frame nobody nothing g g2).
        { destruct F1 as [Q1 Q2 Q3 Q4 Q5]. destruct F3 as [T1 T2 T3 T4 T5]. constructor.
          - rewrite SM. lia.
          - destruct Q2 as (Q2a & Q2b). split; [rewrite B3 in LB; lia|]. intros i Li.
            rewrite KB by (rewrite ?B3; lia). rewrite B3. auto.
          - eapply inv_same; [exact SM|congruence|]. auto.
          - intros i Li _. rewrite M2 by lia. auto.
          - intros i Li. rewrite M2 by lia. auto. }
        assert (EXU : extends (mapOf g1 (vcons u)) c) by (intros s0 k0 x0 K; rewrite LK, K; auto).
        assert (EXA : extends (mapOf g1 (vcons a)) c).
        { intros s0 k0 x0 K. rewrite LK. destruct (cLookup (mapOf g1 (vcons u)) s0 k0) as [y|] eqn:EU; auto. now rewrite (CP _ _ _ _ EU K). }
        split; auto. split; [congruence|]. split; auto. split; [|apply M2, I1]. constructor; auto.
        unfold acc. cbn [vdata vcons]. rewrite (mapOf_maps g3 g2 _ SM), MC, RD.
        split; auto. split; [destruct BD as [->| ->]; [lia|rewrite B3; lia]|].
        split; [rewrite SM; destruct AM as (AM & _); rewrite AM, app_length; cbn; lia|]. split; [right; lia|].
        split; [|split].
        { intros s0 k0 x0 K. auto. }
        { intros k0 x0 K. rewrite LK in K. destruct (cLookup (mapOf g1 (vcons u)) "" k0) as [y|] eqn:EU; [inversion K; subst x0; apply LC, U4, EU|apply A6, K]. }
        { intros L cenv fs pos tail W A. rewrite blen_app in L. pose proof (blen_nonneg (readS g1 (vdata u))). pose proof (blen_nonneg (readS g1 (vdata a))).
          destruct (A7 ltac:(lia) cenv fs (pos + blen (readS g1 (vdata u)))%Z tail W) as (vs & LV' & EV); [eapply agreeG_ext; [apply extendsG_of; exact EXA|exact A]|].
          destruct (U5 ltac:(lia) cenv fs pos (readS g1 (vdata a) ++ tail) W) as (x & EX); [eapply agreeG_ext; [apply extendsG_of; exact EXU|exact A]|].
          exists (x :: vs). split; [cbn; lia|]. now constructor. } }
    destruct ST as (F2 & C2 & L2 & FE & MC2).
    assert (F2t : frame nobody nothing g (tick g2)) by (destruct F2 as [T1 T2 T3 T4 T5]; constructor; auto).
    destruct (IH (S k) (sel (calls g2) e) (tick g2) v' g') as (F3 & C3 & L3 & G3); auto.
    { apply (fr_inv _ _ _ _ F2t). }
    { pose proof (fr_maps _ _ _ _ F2t). lia. }
    { pose proof (proj1 (fr_bufs _ _ _ _ F2t)). lia. }
    { change (cur (tick g2)) with (cur g2). rewrite C2. change (mapOf (tick g2) (cur g1)) with (mapOf g2 (cur g1)). rewrite MC2. intros k0 x0 K. auto. }
    { pose proof (sel_length grow ords Hords sel Hsel (calls g2) e). lia. }
    { apply sel_Forall; auto. }
    split; [eapply frame_trans; eauto|]. split; [|split; auto].
    + change (cur (tick g2)) with (cur g2) in C3. rewrite C2 in C3. pose proof (fr_maps _ _ _ _ F2t). destruct C3 as [->|C3]; auto. right. lia.
    + replace (S n + k) with (n + S k) by lia. auto.
Qed.
End Array.
End Elem.
End Fields.
