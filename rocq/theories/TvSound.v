(** Every vector generated for a declaration of the class is good. *)
From Coq Require Import ZArith String List Bool Lia Arith ZifyBool ZifyNat Permutation.
From Verif Require Import Base Ast IntervalsModel IntervalsSpec InspectModel InspectSpec InspectProofs BranchProofs GoLang GenModel GenCheck WireSpec WireProofs WireFacts
  TvModel TvConstraints TvHeap TvFacts TvClass TvGood TvLeaf TvFrame TvFields TvField TvUnion.
Import ListNotations.
Open Scope string_scope.
Open Scope list_scope.
Open Scope nat_scope.

(** * Clearing the local scope *)
Lemma clear_spec : forall l g, inv g -> Forall (fun i => i < nmaps g) l ->
  let g' := fold_left (fun g i => clearMap i g) l g in
  inv g' /\ nmaps g' = nmaps g /\ cur g' = cur g /\ bufs g' = bufs g /\
  (forall i, ~ In i l -> mapOf g' i = mapOf g i) /\ (forall i, In i l -> noLocals (mapOf g' i)) /\
  (forall i, noLocals (mapOf g i) -> noLocals (mapOf g' i)) /\
  (forall i s k, s <> "" -> cLookup (mapOf g' i) s k = cLookup (mapOf g i) s k).
Proof.
  induction l as [|i l IH]; intros g I F; cbn [fold_left].
  - split; auto. split; auto. split; auto. split; auto. split; auto. split; [intros i []|]. split; auto.
  - inversion F as [|? ? F1 F2]; subst.
    assert (LK : forall j s k, cLookup (mapOf (clearMap i g) j) s k = if Nat.eqb j i then (if String.eqb s "" then None else cLookup (mapOf g j) s k) else cLookup (mapOf g j) s k).
    { intros j s k. unfold clearMap. destruct (Nat.eqb_spec j i) as [->|N]; [rewrite putMap_same by auto; apply clearLocal_lookup|rewrite putMap_other by auto; auto]. }
    assert (LN : nmaps (clearMap i g) = nmaps g) by apply putMap_len.
    assert (I' : inv (clearMap i g)).
    { split; [apply putMap_wfg; [apply I|]; apply clearLocal_goMap, wfg_map, I|]. split; [rewrite LN; apply I|].
      intros j s k x K. rewrite LK in K. destruct (Nat.eqb j i), (String.eqb s ""); try discriminate; eapply (proj2 (proj2 I)); eauto. }
    destruct (IH (clearMap i g) I') as (A1 & A2 & A3 & A4 & A5 & A6 & A7 & A8). { now rewrite LN. }
    assert (NL : noLocals (mapOf (clearMap i g) i)) by (intros k; rewrite LK, Nat.eqb_refl; reflexivity).
    split; auto. split; [congruence|]. split; [rewrite A3; reflexivity|]. split; [rewrite A4; reflexivity|]. split; [|split; [|split]].
    + intros j N. rewrite A5 by (intros J; apply N; now right). unfold clearMap. apply putMap_other. intros ->. apply N. now left.
    + intros j [<-|J]; auto.
    + intros j N. apply A7. intros k. rewrite LK. destruct (Nat.eqb j i); auto.
    + intros j s k N. rewrite A8, LK by auto. destruct (Nat.eqb j i); auto. destruct (String.eqb_spec s ""); [contradiction|auto].
Qed.

Section Sound.
Variable camel : string -> string.
Variable r : resolver.
Variable lenient : Prop.
Variable lim : Z.
Variable gr sg : string -> bool.
Variable grow : nat -> nat -> nat.
Variable ords : nat -> uorders.
Hypothesis Hords : forall n, goodOrders (ords n).
Variable sel : nat -> list vec -> list vec.
Hypothesis Hsel : forall n vs, exists rest, Permutation (sel n vs ++ rest) vs.
Notation cv := (Constant r).
Notation sv := (Struct r).
Notation structSpec := (structSpec camel r lenient lim gr sg).
Definition okStruct (s : struct) : bool := structOK camel r gr sg s && lensHold lim s.
Notation simpleM := (simpleM camel r gr sg).
Notation memOK := (memOK camel r gr sg).

(** Every struct a name stands for is in the class. *)
Hypothesis Hcls : forall nm s, StructNonExtern r nm = Ok s -> sname s = nm /\ okStruct s = true.

Lemma struct_parts : forall s, okStruct s = true -> members_of s <> [] /\ listOK camel gr (memOK s) (members_of s) = true /\ topOK (members_of s) = true /\
  (forall k, In k (refsMs (members_of s)) -> In k (namesMs (members_of s))) /\ (greedyMs gr (members_of s) = true -> gr (sname s) = true) /\
  (sg (sname s) = true -> forallb (singleM sg) (members_of s) = true).
Proof.
  intros s H. apply andb_true_iff in H as (H & _). unfold structOK in H. repeat rewrite andb_true_iff in H. destruct H as (((((A & B) & C) & D) & E) & F).
  split; [destruct (members_of s); [discriminate|discriminate]|]. split; auto. split; auto.
  split; [intros k I; rewrite forallb_forall in D; now apply memb_In, D|].
  split; [intros G; rewrite G in E; exact E|intros G; rewrite G in F; exact F].
Qed.

Lemma listOK_mem : forall ok ms m, listOK camel gr ok ms = true -> In m ms -> ok m = true.
Proof.
  intros ok. induction ms as [|a ms IH]; intros m H I; [destruct I|]. cbn [listOK] in H. repeat rewrite andb_true_iff in H.
  destruct H as (((((A & _) & _) & _) & _) & B). destruct I as [<-|I]; auto.
Qed.
Lemma field_ok : forall s, okStruct s = true -> forall k t, In (k, t) (flat_map allFields (members_of s)) -> fieldOK camel r gr sg s k t = true.
Proof.
  intros s H k t I. destruct (struct_parts s H) as (_ & L & _). apply in_flat_map in I as (m & Im & I).
  pose proof (listOK_mem _ _ _ L Im) as OK. destruct m as [n t'|u tag len cs| | |]; cbn [allFields] in I; try contradiction.
  - destruct I as [E|[]]. inversion E; subst. exact OK.
  - cbn [TvClass.memOK] in OK. unfold unionOK in OK. repeat rewrite andb_true_iff in OK. destruct OK as (_ & OK).
    apply in_flat_map in I as ([l ms] & Ic & I). apply in_flat_map in I as (m & Im' & I). rewrite forallb_forall in OK. specialize (OK _ Ic).
    apply andb_true_iff in OK as (OK & _). cbn [ucase_members] in OK. pose proof (listOK_mem _ _ _ OK Im') as SM.
    destruct m as [n t'| | | |]; try discriminate; cbn [allFields] in I; try contradiction. destruct I as [E|[]]. cbn [TvClass.simpleM] in SM.
    apply andb_true_iff in SM as (SM & _). inversion E; subst. exact SM.
Qed.
Lemma size_ok : forall s, okStruct s = true -> forall k sz cst, In (k, TInt sz cst) (flat_map allFields (members_of s)) -> goodSize sz = true.
Proof.
  intros s H k sz cst I. pose proof (field_ok s H _ _ I) as F. unfold fieldOK in F. repeat rewrite andb_true_iff in F. destruct F as ((F & _) & _).
  destruct cst; cbn [typeOK] in F; [now apply andb_true_iff in F|auto].
Qed.
Lemma small_ok : forall s, okStruct s = true -> countsOK r s.
Proof.
  intros s H k x X C sz cst I. pose proof (size_ok s H k sz cst I) as G. apply goodSize_cases in G. split.
  - assert (2 ^ 8 <= 2 ^ sz)%Z by (apply Z.pow_le_mono_r; lia). change (2 ^ 8)%Z with 256%Z in *. lia.
  - intros l ->. pose proof (field_ok s H _ _ I) as F. unfold fieldOK in F. repeat rewrite andb_true_iff in F. destruct F as ((_ & (_ & F)) & _).
    apply memb_In in C. rewrite C in F. cbn [negb orb] in F. eapply covers_spec; eauto.
Qed.
Lemma len_ok : forall s, okStruct s = true -> forall u tag f cs, In (MUnion u tag (Some (LRef f)) cs) (members_of s) -> rscope f = "" ->
  forall x, (0 <= x < lim)%Z -> widthOK r s (rname f) x.
Proof.
  intros s H u tag f cs I SC x X sz cst J. pose proof (field_ok s H _ _ J) as F. apply andb_true_iff in H as (_ & H). unfold lensHold in H. rewrite forallb_forall in H.
  specialize (H _ J). cbn [fst snd] in H.
  assert (M : memb (rname f) (lenNames (members_of s)) = true).
  { apply memb_In. unfold lenNames. apply in_flat_map. exists (MUnion u tag (Some (LRef f)) cs). split; auto. cbn [refsL]. now apply In_localRef. }
  rewrite M in H. cbn in H. apply Z.leb_le in H. split; [lia|]. intros l ->.
  unfold fieldOK in F. rewrite M in F. cbn [negb andb] in F. rewrite andb_false_r in F. discriminate.
Qed.

Section Level.
Variable fuel : nat.
Variable callS : struct -> gst -> outcome (list vec * gst).
Hypothesis Hcall : forall s, okStruct s = true -> structSpec s (callS s).
Variable strct : struct.
Hypothesis Hs : okStruct strct = true.
Notation R := (refsMs (members_of strct)).
Notation memSpec := (memSpec camel r lenient lim gr sg strct).

Lemma call_ok : forall nm s, StructNonExtern r nm = Ok s -> sname s = nm /\ (greedyMs gr (members_of s) = true -> gr nm = true) /\ structSpec s (callS s).
Proof.
  intros nm s H. destruct (Hcls nm s H) as (N & O). split; auto. split; auto. intros G. rewrite <- N. now apply struct_parts.
Qed.

Lemma disj_nil : forall l, disjC camel [] l = true.
Proof. intros. rewrite disjC_spec. intros x y []. Qed.

Lemma case_chain : forall gen cb ms, listOK camel gr (simpleM strct) ms = true ->
  (forall k x, cLookup cb "" k = Some x -> In k R) -> (forall k, In k (refsMs ms) -> In k R) ->
  (forall nt, In nt (flat_map allFields ms) -> In nt (flat_map allFields (members_of strct))) ->
  chain camel r lenient lim gr sg strct cb (gmember grow ords sel r fuel callS strct gen) ms.
Proof.
  intros gen cb. induction ms as [|m ms IH]; intros OK CB RR IN; cbn [chain]; auto. cbn [listOK] in OK. repeat rewrite andb_true_iff in OK.
  destruct OK as (((((S & D1) & D2) & D3) & GR) & OK).
  split; [|apply IH; auto; intros; [apply RR|apply IN]; unfold refsMs; cbn [flat_map]; apply in_or_app; auto].
  assert (MS : memSpec m (gmember grow ords sel r fuel callS strct gen m)).
  { destruct m as [n t|u tag len cs| | |]; try discriminate; try (apply other_spec; auto; now apply small_ok).
    cbn [TvClass.simpleM] in S. apply andb_true_iff in S as (S & _). cbn [gmember].
    apply field_spec; auto; try exact call_ok; try (now apply small_ok). apply IN. cbn [flat_map allFields]. now left. }
  split; auto. split; auto. split; auto. split.
  { destruct m as [n t|u tag len cs| | |]; try discriminate; cbn [refsF]; try apply disj_nil. cbn [TvClass.simpleM] in S. apply andb_true_iff in S as (S & _).
    unfold fieldOK in S. now apply andb_true_iff in S. }
  split; auto. split; [intros G; rewrite G in GR; cbn in GR; destruct ms; [auto|discriminate]|].
  split.
  { intros DM. exfalso. destruct m as [n t| | | |]; try discriminate. cbn [dropM] in DM. cbn [TvClass.simpleM] in S. rewrite DM in S. now rewrite andb_false_r in S. }
  assert (NU : ~ isUnion m) by (destruct m; try discriminate; auto).
  split; [intros k x K; split; [eauto|contradiction]|]. split; [auto|]. split; [intros U; contradiction|].
  intros k K. destruct m as [n t| | | |]; try contradiction. unfold countNames. apply in_flat_map. exists (n, t). split; auto.
  apply IN. cbn [flat_map allFields]. now left.
Qed.

(** Generation of a union case. *)
Definition genSpec (gen : ucase -> list vec -> gst -> outcome (list vec * gst)) : Prop :=
  (forall c ev g vs g', existsb isFail (ucase_members c) = true -> gen c [ev] g = Ok (vs, g') -> vs = []) /\
  forall c, listOK camel gr (simpleM strct) (ucase_members c) = true -> (forall k, In k (refsMs (ucase_members c)) -> In k R) ->
  (forall nt, In nt (flat_map allFields (ucase_members c)) -> In nt (flat_map allFields (members_of strct))) ->
  forall cb g ev vs g' ci, inv g -> (forall k x, cLookup cb "" k = Some x -> In k R) ->
  ci < nmaps g -> okS g (vdata ev) -> vcons ev = ci -> readS g (vdata ev) = [] -> mapOf g ci = cb ->
  gen c [ev] g = Ok (vs, g') ->
  frame (eq ci) (fun k => In k (refsMs (ucase_members c))) g g' /\
  (cur g' = cur g \/ cur g' = ci \/ nmaps g <= cur g') /\ safe g' (map vdata vs) /\
  Forall (Vg camel r lenient lim gr strct (sbuf (vdata ev)) ci (nmaps g) cb (refsMs (ucase_members c)) (ucase_members c) g') vs.

(** A case that fails has no vectors. *)
Lemma extend_none : forall mem vs g e g', (forall g, mem g = Ok ([], g)) -> extend grow mem vs g = Ok (e, g') -> e = [].
Proof.
  intros mem vs g e g' HM. revert g e g'. induction vs as [|v vs IH]; intros g e g' H; cbn [extend] in H; [congruence|].
  rewrite HM in H. cbn [bind prepend] in H. destruct (extend grow mem vs (setCur (vcons v) g)) as [[rest g3]| | |] eqn:E; try discriminate. cbn [bind app] in H.
  inversion H; subst. eapply IH; eauto.
Qed.
Lemma loop_fail : forall mem, (forall g, mem MFail g = Ok ([], g)) -> forall ms ev g vs g', existsb isFail ms = true ->
  membersLoop grow sel mem ms [ev] g = Ok (vs, g') -> vs = [].
Proof.
  intros mem HM. assert (SN : forall n, sel n [] = []).
  { intros n. destruct (Hsel n []) as (rest & P). apply Permutation_sym, Permutation_nil in P. now apply app_eq_nil in P. }
  induction ms as [|m ms IH]; intros ev g vs g' NF H; [discriminate|]. cbn [membersLoop existsb] in *.
  destruct (membersLoop grow sel mem ms [ev] g) as [[vs1 g1]| | |] eqn:E1; try discriminate. cbn [bind] in H.
  destruct (extend grow (mem m) vs1 g1) as [[e g2]| | |] eqn:E2; try discriminate. cbn [bind] in H. unfold select in H. inversion H; subst vs g'; clear H.
  assert (e = []) as ->; [|apply SN]. apply orb_true_iff in NF as [NF|NF].
  - destruct m; try discriminate. eapply extend_none; eauto.
  - rewrite (IH _ _ _ _ NF E1) in E2. cbn [extend] in E2. congruence.
Qed.

Lemma case_spec : forall gen, genSpec (fun c vs g => membersLoop grow sel (gmember grow ords sel r fuel callS strct gen) (ucase_members c) vs g).
Proof.
  intros gen. split; [intros c ev g vs g' NF H; eapply loop_fail; [|exact NF|exact H]; reflexivity|]. intros c OK RR IN cb g ev vs g' ci I CB LC OE VE RE ME H.
  destruct (membersLoop_spec camel r lenient lim gr sg grow ords Hords sel Hsel strct (small_ok _ Hs) (sbuf (vdata ev)) ci (nmaps g) cb
    (gmember grow ords sel r fuel callS strct gen) (ucase_members c) (case_chain gen cb _ OK CB RR IN) ev g vs g') as (F & C & S & _ & G); auto.
  split; auto. split; auto. destruct C as [(C & _)|C]; auto.
Qed.

Lemma top_chain : forall gen cb, genSpec gen -> noLocals cb -> forall pre ms, members_of strct = pre ++ ms ->
  listOK camel gr (memOK strct) ms = true -> topOK ms = true ->
  chain camel r lenient lim gr sg strct cb (gmember grow ords sel r fuel callS strct gen) ms.
Proof.
  intros gen cb HG NL pre ms. revert pre. induction ms as [|m ms IH]; intros pre E OK TO; cbn [chain]; auto.
  pose proof (listOK_mem _ _ m OK (or_introl eq_refl)) as MO.
  cbn [listOK] in OK. repeat rewrite andb_true_iff in OK. destruct OK as (((((_ & D1) & D2) & D3) & GR) & OK).
  cbn [topOK] in TO. apply andb_true_iff in TO as (TO & TO').
  split; [|apply (IH (pre ++ [m])); auto; now rewrite <- app_assoc].
  assert (RR : forall k, In k (refsMs (m :: ms)) -> In k R).
  { intros k K. rewrite E. unfold refsMs. rewrite flat_map_app. apply in_or_app. right. exact K. }
  assert (IN : forall nt, In nt (allFields m) -> In nt (flat_map allFields (members_of strct))).
  { intros nt K. rewrite E, flat_map_app. apply in_or_app. right. cbn [flat_map]. apply in_or_app. auto. }
  assert (MS : memSpec m (gmember grow ords sel r fuel callS strct gen m)).
  { destruct m as [n t|u tag len cs| | |]; try (apply other_spec; auto; now apply small_ok).
    - cbn [gmember]. apply field_spec; auto; try exact call_ok; try (now apply small_ok). apply IN. now left.
    - cbn [TvClass.memOK] in MO. pose proof MO as MO'. unfold unionOK in MO'. repeat rewrite andb_true_iff in MO'. destruct MO' as ((((( _ & IT) & _) & _) & _) & FC).
      destruct (IntType r tag strct) as [[sz cst]| | |] eqn:EI; try discriminate.
      assert (RM : forall k, In k (refsM (MUnion u tag len cs)) -> In k R) by (intros k K; apply RR; unfold refsMs; cbn [flat_map]; apply in_or_app; auto).
      assert (HL : exists ok, listOK camel gr ok (members_of strct) = true) by (exists (memOK strct); now apply struct_parts).
      apply (union_spec camel r lenient lim gr sg grow ords Hords sel Hsel fuel callS strct u tag len cs MO HL RM sz cst EI gen); [|exact (proj1 HG)|intros f EL SC x X; apply (len_ok _ Hs u tag f cs); auto; rewrite E, <- EL; apply in_or_app; right; now left].
      intros c Ic. rewrite forallb_forall in FC. specialize (FC c Ic). apply andb_true_iff in FC as (FC & _). apply HG; auto.
      + intros k K. apply RM. exact (case_refs camel r gr sg grow ords Hords sel Hsel fuel callS strct u tag len cs MO RM sz cst EI c k Ic K).
      + intros nt K. apply IN. cbn [allFields]. apply in_flat_map. exists c. split; auto. destruct c; exact K. }
  split; auto. split; auto. split; auto. split.
  { destruct m as [n t|u tag len cs| | |]; cbn [refsF]; try apply disj_nil. cbn [TvClass.memOK] in MO. unfold fieldOK in MO. now apply andb_true_iff in MO. }
  split; auto. split; [intros G; rewrite G in GR; cbn in GR; destruct ms; [auto|discriminate]|].
  split.
  { intros DM. split; auto. destruct m as [n t| | | |]; try discriminate. cbn [dropM] in DM. destruct t; try discriminate.
    intros k K. rewrite forallb_forall in TO. now apply memb_In, TO. }
  split; [intros k x K; rewrite NL in K; discriminate|]. split; auto.
  split.
  { intros U. destruct m; try contradiction. intros k K. rewrite disjointb_spec in TO. auto. }
  intros k K. destruct m as [n t| | | |]; try contradiction. unfold countNames. apply in_flat_map. exists (n, t). split; auto. apply IN. now left.
Qed.
End Level.

(** Generation of a struct. *)
Lemma struct_step : forall fuel callS, (forall s, okStruct s = true -> structSpec s (callS s)) ->
  (forall gens : struct -> ucase -> list vec -> gst -> outcome (list vec * gst), (forall s, okStruct s = true -> genSpec s (gens s)) ->
  forall s, okStruct s = true -> structSpec s (structureWith ords (fun s ms => membersLoop grow sel (gmember grow ords sel r fuel callS s (gens s)) ms) s)).
Proof.
  intros fuel callS HC gens HG s OK g vs g' I H. unfold structureWith in H.
  destruct (cloneGlobalMap_spec ords Hords (cur g) g (proj1 I)) as (j & g1 & c1 & E1 & -> & AM & M1 & W1 & L1). rewrite E1 in H. cbn [bind] in H.
  assert (NN1 : nonneg c1).
  { intros s0 k x K. rewrite L1 in K. destruct (String.eqb s0 ""); [discriminate|]. eapply (proj2 (proj2 I)); eauto. }
  assert (NL1 : noLocals c1) by (intros k; rewrite L1; reflexivity).
  destruct (adds_frame nobody nothing g g1 [c1] I AM W1) as (F1 & C1 & B1); [intros c' [<-|[]]; auto|].
  assert (LM1 : nmaps g1 = S (nmaps g)) by (destruct AM as (AM & _); rewrite AM, app_length; cbn; lia).
  destruct (newSlice [] g1) as [d g2] eqn:EN.
  destruct (newSlice_spec nobody nothing [] g1 d g2 (fr_inv _ _ _ _ F1) EN) as (F2 & O2 & S2 & R2 & M2 & C2 & N2).
  destruct (membersLoop _ _ _ _ _ _) as [[vs0 g3]| | |] eqn:EM; try discriminate. cbn [bind] in H. inversion H; subst vs0; clear H.
  destruct (struct_parts s OK) as (NE & LO & TO & RN & GG & SG).
  assert (L2 : nmaps g2 = S (nmaps g)) by (rewrite M2; auto).
  destruct (membersLoop_spec camel r lenient lim gr sg grow ords Hords sel Hsel s (small_ok _ OK) (nbufs g) (nmaps g) (nmaps g2) c1 _ _
    (top_chain fuel callS HC s OK (gens s) c1 (HG s OK) NL1 [] (members_of s) eq_refl LO TO) (mkVec d (nmaps g)) g2 vs g3) as (F3 & C3 & S3 & L3 & G3); auto.
  { apply (fr_inv _ _ _ _ F2). }
  { lia. }
  { cbn [vdata]. rewrite S2, B1. auto. }
  { rewrite (mapOf_maps g1 g2 _ M2). auto. }
  assert (F02 : frame nobody nothing g g2) by (eapply frame_trans; eauto).
  pose proof (fr_maps _ _ _ _ F3) as LM3. pose proof (proj1 (fr_bufs _ _ _ _ F3)) as LB3. pose proof (proj1 (fr_bufs _ _ _ _ F02)) as LB2.
  assert (F03 : frame nobody nothing g g3).
  { destruct F02 as [T1 T2 T3 T4 T5]. destruct F3 as [U1 U2 U3 U4 U5]. constructor; auto.
    - lia.
    - apply (keepB_trans (nbufs g) (nbufs g2) g g2 g3); auto.
    - intros i Li _. rewrite U4 by lia. apply T4; auto.
    - intros i Li. rewrite U4 by lia. apply T5. auto. }
  assert (CU : nmaps g <= cur g3) by (destruct C3 as [(_ & C3)|[C3|C3]]; [contradiction|lia|lia]).
  assert (FC : fold_left (fun g v => clearMap (vcons v) g) vs (clearMap (cur g3) g3) = fold_left (fun g i => clearMap i g) (cur g3 :: map vcons vs) g3).
  { cbn [fold_left]. generalize (clearMap (cur g3) g3). clear. induction vs as [|v vs IH]; intros g; cbn; auto. }
  rewrite FC.
  assert (FV : Forall (fun i => i < nmaps g3) (cur g3 :: map vcons vs)).
  { constructor; [apply (fr_inv _ _ _ _ F3)|]. apply Forall_forall. intros i Ii. apply in_map_iff in Ii as (v & <- & Iv).
    rewrite Forall_forall in G3. apply (G3 _ Iv). }
  destruct (clear_spec _ g3 (fr_inv _ _ _ _ F3) FV) as (I4 & N4 & C4 & B4 & K4 & X4 & Y4 & Z4).
  set (g4 := fold_left (fun (g : gst) (i : nat) => clearMap i g) (cur g3 :: map vcons vs) g3) in *.
  assert (OLD : forall i, i < nmaps g -> mapOf g4 i = mapOf g3 i).
  { intros i Li. apply K4. intros [E|J]; [lia|]. apply in_map_iff in J as (v & E & Iv). rewrite Forall_forall in G3.
    destruct (G3 _ Iv) as (_ & _ & _ & V & _). lia. }
  split; [|split; [|split; [|split; [|split]]]].
  - destruct F03 as [T1 T2 T3 T4 T5]. constructor; auto.
    + lia.
    + destruct T2. split; rewrite B4; auto.
    + intros i Li _. rewrite OLD by auto. auto.
    + intros i Li. rewrite OLD by auto. auto.
  - lia.
  - rewrite C4. apply X4. now left.
  - eapply safe_ext; [|exact S3]. intros x _. unfold capOf. now rewrite B4.
  - intros G. apply L3. auto.
  - apply Forall_forall. intros v Iv. rewrite Forall_forall in G3. destruct (G3 _ Iv) as (V1 & V2 & V3 & V4 & V5 & V6 & V7).
    assert (IC : In (vcons v) (cur g3 :: map vcons vs)) by (right; now apply in_map).
    split; [unfold okS, capOf in *; now rewrite B4|]. split; auto. split; [lia|]. split; auto.
    split.
    + intros s0 k x NS K. rewrite Z4 by auto. apply V5. rewrite L1. destruct (String.eqb_spec s0 ""); [contradiction|auto].
    + assert (RD : readS g4 (vdata v) = readS g3 (vdata v)) by (unfold readS; now rewrite B4). rewrite RD.
      intros LN cenv fs pos tail W AG GT. destruct (V7 LN) as (WD & EN3).
      destruct (EN3) with (cenv := cenv) (fs := fs) (pos := pos) (tail := tail) as (fs' & E & _); auto.
      * intros k x K. destruct (WD _ _ K) as [K'|K']; auto. rewrite NL1 in K'. discriminate.
      * intros s0 k x IS NS K. apply AG; auto. rewrite Z4; auto.
      * intros k x K (J1 & J2). exfalso. auto.
      * exists fs'. exact E.
Qed.

Lemma structure_spec : forall n, (forall s, okStruct s = true -> structSpec s (structureWith ords (gmembers grow ords sel r n) s)) /\
  (forall s, okStruct s = true -> genSpec s (fun c => gmembers grow ords sel r n s (ucase_members c))).
Proof.
  induction n as [|n (IH1 & IH2)].
  - split.
    + intros s OK g vs g' I H. unfold structureWith in H. cbn [gmembers] in H.
      destruct (cloneGlobalMap ords (cur g) g) as [[c g1]| | |]; discriminate.
    + intros s OK. split; [intros c ev g vs g' _ H; discriminate|]. intros c _ _ _ cb g ev vs g' ci _ _ _ _ _ _ _ H. discriminate.
  - split.
    + intros s OK. exact (struct_step n _ IH1 (fun s c => gmembers grow ords sel r n s (ucase_members c)) IH2 s OK).
    + intros s OK. exact (case_spec n _ IH1 s OK (fun c => gmembers grow ords sel r n s (ucase_members c))).
Qed.

(** All suites. *)
Definition kept (g g' : gst) : Prop := nmaps g <= nmaps g' /\ keepB (nbufs g) g g' /\ forall i, i < nmaps g -> mapOf g' i = mapOf g i.
Lemma suites_spec : forall n ss g res g', wfg g -> (forall i, nonneg (mapOf g i)) -> Forall (fun s => Extern s = false -> okStruct s = true) ss ->
  suites grow ords sel r n ss g = Ok (res, g') ->
  kept g g' /\
  Forall (fun x => exists s, In s ss /\ Extern s = false /\ sname s = fst x /\
    Forall (fun v => okS g' (vdata v) /\ vcons v < nmaps g' /\ noLocals (mapOf g' (vcons v)) /\
      structGood camel r lenient lim gr s (mapOf g' (vcons v)) (readS g' (vdata v))) (snd x)) res.
Proof.
  intros n. induction ss as [|s ss IH]; intros g res g' W N F H; cbn [suites] in H.
  - inversion H; subst. split; [|constructor]. split; auto. split; auto. apply keepB_refl.
  - inversion F as [|? ? F1 F2]; subst. destruct (Extern s) eqn:EX.
    + destruct (IH _ _ _ W N F2 H) as (A & B). split; auto. eapply Forall_impl; [|exact B]. intros x (s' & X1 & X2). exists s'. split; [now right|auto].
    + destruct (newMap NewConstraints g) as [c g1] eqn:EN. inversion EN; subst c g1; clear EN.
      set (g1 := mkG (maps g ++ [NewConstraints]) (cur g) (bufs g) (rnd g) (calls g)) in H.
      assert (M1 : forall i, i < nmaps g -> mapOf g1 i = mapOf g i) by (intros i Li; unfold g1, mapOf; cbn [maps]; now apply app_nth1).
      assert (N1 : nmaps g1 = S (nmaps g)) by (unfold g1; cbn [maps]; rewrite app_length; cbn; lia).
      assert (I1 : inv (setCur (nmaps g) g1)).
      { split; [|split; [change (nmaps g < nmaps g1); lia|]].
        - unfold wfg, g1. cbn [setCur maps]. apply Forall_app. split; auto. constructor; auto. split; constructor.
        - intros i. change (nonneg (mapOf g1 i)). destruct (Nat.lt_ge_cases i (nmaps g)); [rewrite M1; auto|]. unfold mapOf, g1. cbn [maps]. rewrite app_nth2 by lia.
          destruct (i - nmaps g) as [|[|q]]; cbn; intros s0 k x K; discriminate. }
      destruct (structure grow ords sel r n s (setCur (nmaps g) g1)) as [[vs g2]| | |] eqn:ES; try discriminate. cbn [bind] in H.
      destruct (suites grow ords sel r n ss g2) as [[rest g3]| | |] eqn:ER; try discriminate. cbn [bind] in H. inversion H; subst res g3; clear H.
      unfold structure in ES. destruct (proj1 (structure_spec n) s (F1 eq_refl) _ _ _ I1 ES) as (FS & _ & _ & _ & _ & GS). apply frame_setCur in FS.
      pose proof (fr_inv _ _ _ _ FS) as I2. pose proof (fr_maps _ _ _ _ FS) as LM2. pose proof (fr_bufs _ _ _ _ FS) as B2.
      destruct (IH g2 rest g' (proj1 I2) (proj2 (proj2 I2)) F2 ER) as ((R1 & R2 & R3) & GR).
      split; [|constructor].
      * split; [lia|]. split; [apply (keepB_trans (nbufs g) (nbufs g2) g g2 g'); auto; apply B2|].
        intros i Li. rewrite R3 by lia. rewrite (frame_map _ _ _ _ FS) by lia. auto.
      * exists s. split; [now left|]. split; auto. split; auto. cbn [snd]. eapply Forall_impl; [|exact GS].
        intros v (V1 & V2 & V3 & V4 & V5 & V6). destruct (keep_ok _ _ _ _ R2 (proj1 V1) V1) as (K1 & K2 & _).
        rewrite K2, R3 by lia. split; auto. split; [lia|auto].
      * eapply Forall_impl; [|exact GR]. intros x (s' & X1 & X2). exists s'. split; [now right|auto].
Qed.

Lemma vectors_good : forall os n fs rn c, NewResolverFiles os fs = Ok r -> classFiles camel r gr sg fs = true -> lensFiles lim fs = true ->
  GenerateFiles grow ords sel os n fs rn = Ok c ->
  Forall (fun su => exists s, In s (definedStructs fs) /\ sname s = stype su /\
    Forall (fun v => noLocals (snd v) /\ structGood camel r lenient lim gr s (snd v) (fst v)) (svectors su)) c.
Proof.
  intros os n fs rn c ER CL LF H. unfold GenerateFiles in H. rewrite ER in H. cbn [bind] in H.
  destruct (suites grow ords sel r n (flat_map fstructs fs) (mkG [] 0 [] rn 0)) as [[ss g]| | |] eqn:ES; try discriminate. cbn [bind] in H. inversion H; subst c; clear H.
  destruct (suites_spec n (flat_map fstructs fs) (mkG [] 0 [] rn 0) ss g) as (_ & G); auto.
  { constructor. }
  { intros i s k x K. unfold mapOf in K. destruct i; discriminate. }
  { apply Forall_forall. intros s I E. unfold classFiles in CL. unfold lensFiles in LF. rewrite forallb_forall in CL, LF.
    assert (In s (definedStructs fs)) by (unfold definedStructs; apply filter_In; rewrite E; auto). apply andb_true_iff. auto. }
  apply Forall_forall. intros su I. apply in_map_iff in I as (x & <- & Ix). rewrite Forall_forall in G. destruct (G x Ix) as (s & A & B & C & D).
  exists s. split; [unfold definedStructs; apply filter_In; now rewrite B|]. split; auto. cbn [svectors]. apply Forall_forall. intros v Iv.
  apply in_map_iff in Iv as (w & <- & Iw). rewrite Forall_forall in D. destruct (D w Iw) as (_ & _ & X & Y). split; auto.
Qed.
End Sound.
