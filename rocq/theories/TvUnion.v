(** Generation of the members other than fields, unions in particular. *)
From Coq Require Import ZArith String List Bool Lia Arith ZifyBool ZifyNat Permutation.
From Verif Require Import Base Ast IntervalsModel IntervalsSpec InspectModel InspectSpec InspectProofs BranchProofs GoLang GenModel GenCheck WireSpec WireProofs WireFacts
  TvModel TvConstraints TvHeap TvFacts TvClass TvGood TvLeaf TvFrame TvFields TvField.
Import ListNotations.
Open Scope string_scope.
Open Scope list_scope.
Open Scope nat_scope.

Lemma allFields_name : forall n t m, In (n, t) (allFields m) -> In n (fieldNames m).
Proof.
  intros n t m. induction m as [n' t'|u tag len cs IH| | |] using member_ind'; cbn [fieldNames allFields]; try contradiction.
  - intros [E|[]]. inversion E; subst. now left.
  - intros I. apply in_flat_map in I as ([l ms] & Ic & I). apply in_flat_map in I as (m & Im & I).
    rewrite Forall_forall in IH. specialize (IH _ Ic). cbn [ucase_members] in IH. rewrite Forall_forall in IH.
    apply in_flat_map. exists (UCase l ms). split; auto. apply in_flat_map. eauto.
Qed.

Section Union.
Variable camel : string -> string.
Variable r : resolver.
Variable lenient : Prop.
Variable lim : Z.
Variable gr sg : string -> bool.
Variable grow : nat -> nat -> nat.
Variable ords : nat -> uorders.
Hypothesis Hords : forall n, goodOrders (ords n).
Variable sel : nat -> list vec -> list vec.
Hypothesis Hsel : forall n vs, exists rest, Permutation (sel n vs ++ rest) vs.
Notation cv := (Constant r).
Notation sv := (Struct r).
Notation EncMs := (encMs camel cv sv lenient).
Variable fuel : nat.
Variable callS : struct -> gst -> outcome (list vec * gst).
Variable strct : struct.
Notation ctxs := (scontexts strct).
Notation R := (refsMs (members_of strct)).
Notation goodM := (goodM camel r lenient lim gr strct).
Notation goodV := (goodV camel r lenient lim gr strct).
Notation memSpec := (memSpec camel r lenient lim gr sg strct).
Notation Vg := (Vg camel r lenient lim gr strct).

(** The type of a field found by name. *)
Lemma found_field : forall ok n ms sz cst, listOK camel gr ok ms = true ->
  findIntField n (flat_map (fun m => match m with MField n t => [(n, t)] | _ => [] end) ms) = Ok (sz, cst) ->
  In (n, TInt sz cst) (flat_map allFields ms) /\ forall t, In (n, t) (flat_map allFields ms) -> t = TInt sz cst.
Proof.
  intros ok n ms sz cst. induction ms as [|m ms IH]; intros OK H; [discriminate|].
  cbn [listOK] in OK. repeat rewrite andb_true_iff in OK. destruct OK as (((((_ & D) & _) & _) & _) & OK). specialize (IH OK).
  rewrite disjC_spec in D. cbn [flat_map] in *.
  assert (NM : forall t, In (n, t) (flat_map allFields ms) -> In n (namesMs ms)).
  { intros t I. apply in_flat_map in I as (m' & Im & I). unfold namesMs. apply in_flat_map. exists m'. split; auto. eapply allFields_name; eauto. }
  destruct m as [fn t|u tag len cs| | |]; cbn [app] in H.
  - cbn [findIntField] in H. cbn [allFields fieldNames] in *. destruct (String.eqb_spec fn n) as [->|NE].
    + destruct t as [sz' c'| | | | | |]; try discriminate. inversion H; subst. split; [now left|]. intros t [E|I]; [congruence|].
      exfalso. apply (D n n); [now left|eauto|auto].
    + destruct (IH H) as (I1 & I2). split; [now right|]. intros t' [E|I]; [congruence|auto].
  - destruct (IH H) as (I1 & I2). split; [apply in_or_app; auto|]. intros t' I. apply in_app_iff in I as [I|I]; auto.
    exfalso. apply (D n n); auto. + eapply allFields_name; eauto. + eauto.
  - auto.
  - auto.
  - auto.
Qed.

Lemma lenconstrain_inv : forall f vs g res g', inv g -> Forall (fun v => vcons v < nmaps g) vs ->
  lenconstrain ords f vs g = Ok (res, g') -> inv g'.
Proof.
  intros f. induction vs as [|v vs IH]; intros g res g' I F H; cbn [lenconstrain] in H.
  - inversion H; subst. auto.
  - inversion F as [|? ? F1 F2]; subst.
    destruct (cloneMap_spec ords Hords (vcons v) g (proj1 I)) as (j & g1 & c1 & E1 & -> & AM & M1 & W1 & L1). rewrite E1 in H. cbn [bind] in H.
    assert (NN1 : nonneg c1) by (intros s k x K; rewrite L1 in K; eapply (proj2 (proj2 I)); eauto).
    destruct (adds_frame nobody nothing g g1 [c1] I AM W1) as (FR & C1 & B1); [intros c' [<-|[]]; auto|].
    assert (LM1 : nmaps g1 = S (nmaps g)) by (destruct AM as (AM & _); rewrite AM, app_length; cbn; lia).
    pose proof (fr_inv _ _ _ _ FR) as I1.
    destruct (locreate_spec (nmaps g) f (Z.of_nat (slen (vdata v))) g1 W1) as (y & c & EL & GM & LK & UV & OT); [lia|].
    rewrite EL in H. cbn [bind] in H. rewrite M1 in UV, OT.
    assert (NNc : nonneg c).
    { intros s k z K. destruct (string_dec s (rscope f)) as [->|NS]; [destruct (string_dec k (rname f)) as [->|NK]|].
      - unfold cLookupRef in *. rewrite LK in K. inversion K; subst. destruct UV as [UV|(_ & ->)]; [eapply NN1; eauto|lia].
      - rewrite OT in K by congruence. eapply NN1; eauto.
      - rewrite OT in K by congruence. eapply NN1; eauto. }
    assert (I2 : inv (putMap (nmaps g) c g1)).
    { split; [apply putMap_wfg; auto; apply I1|]. split; [rewrite putMap_len; cbn [putMap cur]; apply I1|].
      intros i. destruct (Nat.eq_dec i (nmaps g)) as [->|NE]; [rewrite putMap_same by lia; auto|rewrite putMap_other by auto; apply I1]. }
    destruct (lenconstrain ords f vs (putMap (nmaps g) c g1)) as [[rest g3]| | |] eqn:ER; try discriminate. cbn [bind] in H. inversion H; subst.
    eapply IH; [exact I2| |exact ER]. eapply Forall_impl; [|exact F2]. intros w L. cbn beta in *. rewrite putMap_len, LM1. lia.
Qed.

Section One.
Variable u : string.
Variable tag : idref.
Variable len : option lconstraint.
Variable cs : list ucase.
Notation M := (MUnion u tag len cs).
Hypothesis Hok : unionOK camel r gr sg strct tag len cs (fieldNames M) = true.
Hypothesis Hlist : exists ok, listOK camel gr ok (members_of strct) = true.
Hypothesis Hrefs : forall k, In k (refsM M) -> In k R.

Variable sz : Z.
Variable cst : option intlist.
Hypothesis Hint : IntType r tag strct = Ok (sz, cst).

Lemma union_parts : refOK ctxs tag = true /\ (forall f, len = Some (LRef f) -> refOK ctxs f = true) /\ (0 <= sz <= 32)%Z /\
  Forall (fun c => listFits r sz (caseRanges c) = true) cs /\ (exists iv, Intervals r (flat_map caseRanges cs) = Ok iv) /\
  Forall (fun c => ucase_list c <> Some []) cs /\ disjC camel (localRef tag ++ refsL len) (fieldNames M) = true /\
  (forall c, In c cs -> listOK camel gr (simpleM camel r gr sg strct) (ucase_members c) = true /\
     forall k, In k (refsMs (ucase_members c)) -> In k (namesMs (ucase_members c)) \/ disjC camel [k] (fieldNames M) = true).
Proof.
  pose proof Hok as H. unfold unionOK in H. rewrite Hint in H. repeat rewrite andb_true_iff in H.
  destruct H as ((((((A & B) & ((C1 & C2) & C3)) & D) & E) & F) & G).
  split; auto. split; [intros f ->; auto|]. split; [lia|]. split; [apply Forall_forall; intros c I; rewrite forallb_forall in C3; specialize (C3 c I); now apply andb_true_iff in C3|].
  split; [destruct (Intervals r (flat_map caseRanges cs)); try discriminate; eauto|].
  split; [apply Forall_forall; intros c I K; rewrite forallb_forall in E; specialize (E c I); rewrite K in E; discriminate|].
  split; auto. intros c I. rewrite forallb_forall in G. specialize (G c I). apply andb_true_iff in G as (G1 & G2). split; auto.
  intros k K. rewrite forallb_forall in G2. specialize (G2 k K). apply orb_true_iff in G2 as [G2|G2]; auto. left. now apply memb_In.
Qed.

Lemma simple_refs : forall ms, listOK camel gr (simpleM camel r gr sg strct) ms = true -> refsMs ms = flat_map refsF ms /\ greedyMs gr ms = existsb (greedyF gr) ms.
Proof.
  induction ms as [|m ms IH]; intros H; auto. cbn [listOK] in H. repeat rewrite andb_true_iff in H. destruct H as (((((S & _) & _) & _) & _) & H).
  destruct (IH H) as (A & B). unfold refsMs, greedyMs in *. cbn [flat_map existsb]. rewrite A, B. destruct m; try discriminate; auto.
Qed.
Lemma case_refs : forall c k, In c cs -> In k (refsMs (ucase_members c)) -> In k (refsM M).
Proof.
  intros c k I K. destruct union_parts as (_ & _ & _ & _ & _ & _ & _ & P). destruct (P c I) as (L & _).
  destruct (simple_refs _ L) as (E & _). rewrite E in K. cbn [refsM]. apply in_or_app. right. apply in_or_app. right. apply in_flat_map. eauto.
Qed.
Lemma case_names : forall c k, In c cs -> In k (namesMs (ucase_members c)) -> In k (fieldNames M).
Proof.
  intros c k I K. cbn [fieldNames]. apply in_flat_map. exists c. split; auto. destruct c as [l ms]. exact K.
Qed.
Lemma tag_width : rscope tag = "" -> forall x, widthOK r strct (rname tag) x -> (x < 2 ^ sz)%Z.
Proof.
  intros E. pose proof Hint as H. unfold IntType in H. rewrite E in H. cbn [String.eqb] in H. destruct Hlist as (ok & L).
  destruct (found_field ok _ _ _ _ L H) as (A & B). intros x X. eapply X; eauto.
Qed.
Lemma tag_fits : rscope tag = "" -> forall c x, In c cs -> existsb isFail (ucase_members c) = false -> takes cv cs x c -> (0 <= x < 2 ^ sz)%Z ->
  widthOK r strct (rname tag) x.
Proof.
  intros E c x Ic NF TK X. pose proof Hint as H. unfold IntType in H. rewrite E in H. cbn [String.eqb] in H. destruct Hlist as (ok & L).
  destruct (found_field ok _ _ _ _ L H) as (_ & B). intros s' c' J. apply B in J. inversion J; subst s' c'. split; [lia|]. intros l ->.
  pose proof Hok as HO. unfold unionOK in HO. rewrite Hint in HO. repeat rewrite andb_true_iff in HO.
  destruct HO as ((((((_ & _) & (_ & C3)) & _) & _) & _) & _). rewrite forallb_forall in C3. specialize (C3 c Ic). apply andb_true_iff in C3 as (_ & C3).
  unfold caseFits in C3. rewrite E, NF in C3. cbn [String.eqb negb orb] in C3.
  destruct TK as [(a & b & _ & (l' & EL & g & p & q & Ig & RB & XB) & _)|(_ & _ & EL)]; rewrite EL in C3; [|discriminate].
  rewrite forallb_forall in C3. specialize (C3 g Ig). rewrite RB in C3. eapply covers_spec; eauto.
Qed.

(** A vector of a union for one of the cases [cc], before its length is
    recorded. *)
Definition lenDone (l : option lconstraint) (c2 : cons) (d : bytes) : Prop :=
  match l with None => True | Some (LRef f) => cLookupRef c2 f = Some (blen d) | Some (LLeftover _) => False end.
Definition uGood (cc : list ucase) (l : option lconstraint) (c0 c2 : cons) (d : bytes) : Prop :=
  exists c x cb, In c cc /\ takes cv cs (u64 x) c /\ cLookupRef c2 tag = Some x /\ (cLookupRef c0 tag = Some x \/ (0 <= x < 2 ^ sz)%Z) /\
    extends c0 c2 /\ (forall k y, cLookup c2 "" k = Some y -> cLookup c0 "" k = Some y \/ In k (localRef tag ++ refsL l) \/ In k (refsMs (ucase_members c))) /\
    (forall k y, cLookup cb "" k = Some y -> cLookup c0 "" k = Some y \/ In k (localRef tag) /\ y = x /\ widthOK r strct (rname tag) x) /\
    goodV (ucase_members c) cb c2 d /\ lenDone l c2 d.

Lemma localRef_In : forall f k, In k (localRef f) -> rscope f = "" /\ k = rname f.
Proof. intros f k I. unfold localRef in I. destruct (String.eqb_spec (rscope f) ""); [|destruct I]. destruct I as [<-|[]]; auto. Qed.
Lemma In_localRef : forall f, rscope f = "" -> In (rname f) (localRef f).
Proof. intros f E. unfold localRef. rewrite E. now left. Qed.

Lemma uGood_weak : forall cc cc' l c0 c2 d, incl cc cc' -> uGood cc l c0 c2 d -> uGood cc' l c0 c2 d.
Proof. intros cc cc' l c0 c2 d IN (c & x & cb & Ic & U). exists c, x, cb. split; auto. Qed.
Lemma uGood_goodM : forall c0 c2 d, (forall k x, cLookup c0 "" k = Some x -> ~ In k (fieldNames M)) -> nonneg c2 -> uGood cs len c0 c2 d -> goodM M c0 c2 d.
Proof.
  intros c0 c2 d NF NN (c & x & cb & Ic & TK & LK & XR & EX & NEW & CB & GV & LD).
  destruct union_parts as (RT & RL & SZ & _ & _ & _ & DN & P). destruct (P c Ic) as (LO & KN). destruct (simple_refs _ LO) as (RE & GE).
  unfold TvGood.goodM. cbn [dropM]. split; auto.
  assert (REFS : forall k y, cLookup c2 "" k = Some y -> cLookup c0 "" k = Some y \/ In k (refsM M)).
  { intros k y K. destruct (NEW _ _ K) as [K'|[K'|K']]; auto; right.
    - cbn [refsM]. apply in_app_iff in K' as [K'|K']; apply in_or_app; auto. right. apply in_or_app; auto.
    - eapply case_refs; eauto. }
  split; auto. intros L. destruct (GV L) as (WD & EN). split.
  { intros k y K. destruct (WD _ _ K) as [K'|K']; auto. destruct (CB _ _ K') as [K2|(K2 & -> & K3)]; auto. right.
    apply localRef_In in K2 as (S0 & ->). auto. }
  intros WID cenv fs pos tail W AG AL GT.
  assert (NT : forall k, In k (localRef tag ++ refsL len) -> ~ In k (fieldNames M)).
  { intros k I J. rewrite disjC_spec in DN. now apply (DN k k). }
  assert (REF : forall f y, refOK ctxs f = true -> (rscope f = "" -> In (rname f) (localRef tag ++ refsL len)) -> cLookupRef c2 f = Some y -> refers camel cenv fs f y).
  { intros f y RF IR LF. unfold refers, cLookupRef in *. destruct (String.eqb_spec (rscope f) "") as [S0|S0].
    - rewrite S0 in LF. apply AL; auto. split; [|now apply NT, IR]. specialize (IR S0). cbn [refsM].
      apply in_app_iff in IR as [IR|IR]; apply in_or_app; auto. right. apply in_or_app; auto.
    - apply (AG (rscope f) (rname f)); auto. unfold refOK in RF. apply orb_true_iff in RF as [RF|RF]; [apply String.eqb_eq in RF; contradiction|now apply memb_In]. }
  assert (RX : refers camel cenv fs tag x) by (apply REF; auto; intros S0; apply in_or_app; left; now apply In_localRef).
  assert (X0 : u64 x = x).
  { unfold cLookupRef in LK. pose proof (NN _ _ _ LK) as X1. unfold u64. apply Z.mod_small. destruct (String.eqb_spec (rscope tag) "") as [S0|S0].
    - rewrite S0 in LK. specialize (WID _ _ LK). apply tag_width in WID; auto.
      assert (2 ^ sz <= 2 ^ 32)%Z by (apply Z.pow_le_mono_r; lia). unfold two64. change (2 ^ 32)%Z with 4294967296%Z in *. lia.
    - split; auto. unfold refers in RX. destruct (String.eqb_spec (rscope tag) ""); [contradiction|]. destruct RX as (ty & cf & R1 & R2).
      unfold refOK in RT. apply orb_true_iff in RT as [RT|RT]; [apply String.eqb_eq in RT; contradiction|]. apply memb_In in RT.
      destruct (proj1 W _ RT) as (ty' & cf' & R3 & R4). rewrite R1 in R3. inversion R3; subst. eauto. }
  rewrite X0 in TK.
  assert (CASE : forall tl, (greedyMs gr (ucase_members c) = true -> tl = []) ->
     exists fs', encCase camel cv sv lenient cenv pos cs x fs d tl fs' /\ agreeL camel fs' c2 (fun k => In k (fieldNames M))).
  { intros tl GT'. destruct (EN WID cenv fs pos tl W AG) as (fs' & E & A); auto.
    - intros k y K (I1 & I2). apply AL; auto. split; [eapply case_refs; eauto|]. destruct (KN k I1) as [J|J]; [contradiction|].
      intros F. rewrite disjC_spec in J. apply (J k k); auto. now left.
    - exists fs'. split; [econstructor; eauto|]. intros k y K F. apply A; auto.
      destruct (NEW _ _ K) as [K'|[K'|K']].
      + exfalso. eapply NF; eauto.
      + exfalso. eapply NT; eauto.
      + destruct (KN k K') as [J|J]; auto. exfalso. rewrite disjC_spec in J. apply (J k k); auto. now left. }
  unfold lenDone in LD. destruct len as [[f|i]|] eqn:EL; [|contradiction|].
  - destruct (CASE []) as (fs' & E & A); auto. exists fs'. split; auto. econstructor; eauto. apply REF; auto.
    intros S0. apply in_or_app. right. cbn [refsL]. now apply In_localRef.
  - destruct (CASE tail) as (fs' & E & A).
    { intros G. apply GT. cbn [greedyM]. apply existsb_exists. exists c. split; auto. rewrite <- GE. auto. }
    exists fs'. split; auto. econstructor; eauto.
Qed.

Variable gen : ucase -> list vec -> gst -> outcome (list vec * gst).
(** What generating a case promises. *)
Hypothesis Hgen : forall c, In c cs -> forall cb g ev vs g' ci, inv g -> (forall k x, cLookup cb "" k = Some x -> In k R) ->
  ci < nmaps g -> okS g (vdata ev) -> vcons ev = ci -> readS g (vdata ev) = [] -> mapOf g ci = cb ->
  gen c [ev] g = Ok (vs, g') ->
  frame (eq ci) (fun k => In k (refsMs (ucase_members c))) g g' /\
  (cur g' = cur g \/ cur g' = ci \/ nmaps g <= cur g') /\ safe g' (map vdata vs) /\
  Forall (Vg (sbuf (vdata ev)) ci (nmaps g) cb (refsMs (ucase_members c)) (ucase_members c) g') vs.

Hypothesis Hfail : forall c ev g vs g', existsb isFail (ucase_members c) = true -> gen c [ev] g = Ok (vs, g') -> vs = [].

Definition optOK (c0 : cons) (b : branch) : Prop :=
  In (bcase b) cs /\ wf_set (bset b) /\ (forall x, Contains (bset b) x = true -> (0 <= x < 2 ^ sz)%Z /\ takes cv cs x (bcase b)) /\
  forall x0, cLookupRef c0 tag = Some x0 -> Contains (bset b) (u64 x0) = true.

Lemma uGood_frame : forall cc l c0 g g' v, frame nobody nothing g g' -> okS g (vdata v) -> vcons v < nmaps g ->
  uGood cc l c0 (mapOf g (vcons v)) (readS g (vdata v)) -> uGood cc l c0 (mapOf g' (vcons v)) (readS g' (vdata v)).
Proof.
  intros cc l c0 g g' v F O L U. rewrite (frame_map _ _ _ _ F L). destruct (keep_ok _ _ _ _ (fr_bufs _ _ _ _ F) (proj1 O) O) as (_ & -> & _). auto.
Qed.

Lemma unionLoop_spec : forall bs g base c0 res g', inv g -> base < nmaps g -> (forall s k, cLookup (mapOf g base) s k = cLookup c0 s k) ->
  (forall k x, cLookup c0 "" k = Some x -> In k R) -> Forall (optOK c0) bs ->
  unionLoop ords fuel gen tag base bs g = Ok (res, g') ->
  frame nobody nothing g g' /\ (cur g' = cur g \/ nmaps g <= cur g') /\ safe g' (map vdata res) /\
  Forall (fun v => okS g' (vdata v) /\ nbufs g <= sbuf (vdata v) /\ nmaps g <= vcons v < nmaps g' /\
     uGood (map bcase bs) None c0 (mapOf g' (vcons v)) (readS g' (vdata v))) res.
Proof.
  destruct union_parts as (RT & RL & SZ & _ & _ & _ & DN & P).
  induction bs as [|b bs IH]; intros g base c0 res g' I LB CB LOC FO H; cbn [unionLoop] in H.
  - inversion H; subst. split; [now apply frame_refl|]. split; auto. split; cbn; auto.
  - inversion FO as [|? ? (O1 & O2 & O3 & O4) FO']; subst.
    destruct (cloneMap_spec ords Hords base g (proj1 I)) as (j & g1 & c1 & E1 & -> & AM & M1 & W1 & L1). rewrite E1 in H. cbn [bind] in H.
    assert (NN1 : nonneg c1) by (intros s k x K; rewrite L1 in K; eapply (proj2 (proj2 I)); eauto).
    destruct (adds_frame nobody nothing g g1 [c1] I AM W1) as (F1 & C1 & B1); [intros c' [<-|[]]; auto|].
    assert (LM1 : nmaps g1 = S (nmaps g)) by (destruct AM as (AM & _); rewrite AM, app_length; cbn; lia).
    destruct (randomIn fuel (bset b) (setCur (nmaps g) g1)) as [[x g3]| | |] eqn:ER; try discriminate. cbn [bind] in H.
    assert (P32 : (2 ^ sz <= 2 ^ 32)%Z) by (apply Z.pow_le_mono_r; lia). change (2 ^ 32)%Z with 4294967296%Z in P32.
    destruct (randomIn_spec fuel (bset b) (setCur (nmaps g) g1) x g3 O2) as (CX & SH); auto.
    { intros y CY. apply O3 in CY. unfold two63. lia. }
    destruct (O3 _ CX) as (XR & XT). rewrite s64_id in H by (unfold two63; lia).
    assert (I2 : inv (setCur (nmaps g) g1)) by (apply inv_setCur; [apply (fr_inv _ _ _ _ F1)|lia]).
    destruct SH as (SM & SC & SB). cbn [setCur maps cur bufs] in SM, SC, SB.
    assert (I3 : inv g3) by (eapply inv_same; [| |exact I2]; auto).
    assert (L3 : nmaps g < nmaps g3) by (rewrite SM; lia).
    rewrite SC in H. destruct (locreate_spec (nmaps g) tag x g3 (proj1 I3) L3) as (y & c & EL & GM & LK & UV & OT).
    rewrite EL in H. cbn [bind] in H. rewrite (mapOf_maps g1 g3 _ SM), M1 in UV, OT.
    assert (Y : (cLookupRef c0 tag = Some y \/ y = x /\ cLookupRef c0 tag = None)).
    { unfold cLookupRef in *. rewrite L1, CB in UV. destruct UV as [UV|(UV & ->)]; auto. }
    assert (YN : (0 <= y)%Z).
    { destruct Y as [Y|(-> & _)]; [|lia]. unfold cLookupRef in Y. rewrite <- CB in Y. eapply (proj2 (proj2 I)); eauto. }
    assert (YT : takes cv cs (u64 y) (bcase b)).
    { destruct Y as [Y|(-> & _)]; [now apply O3, O4|]. unfold u64. rewrite Z.mod_small; [auto|unfold two64; lia]. }
    assert (EXc : extends c0 c).
    { intros s k z K. destruct (string_dec s (rscope tag)) as [->|NS]; [destruct (string_dec k (rname tag)) as [->|NK]|].
      - unfold cLookupRef in *. destruct Y as [Y|(_ & Y)]; congruence.
      - rewrite OT by congruence. now rewrite L1, CB.
      - rewrite OT by congruence. now rewrite L1, CB. }
    assert (NEWc : forall k z, cLookup c "" k = Some z -> cLookup c0 "" k = Some z \/ In k (localRef tag) /\ z = y /\ (0 <= y < 2 ^ sz)%Z).
    { intros k z K. destruct (string_dec "" (rscope tag)) as [ES|NS]; [destruct (string_dec k (rname tag)) as [->|NK]|].
      - unfold cLookupRef in *. rewrite <- ES in *. rewrite LK in K. inversion K; subst z. destruct Y as [Y|(-> & _)]; auto.
        right. split; [apply In_localRef; auto|]. split; auto.
      - left. rewrite OT in K by congruence. now rewrite L1, CB in K.
      - left. rewrite OT in K by congruence. now rewrite L1, CB in K. }
    assert (NNc : nonneg c).
    { intros s k z K. destruct (string_dec s (rscope tag)) as [->|NS]; [destruct (string_dec k (rname tag)) as [->|NK]|].
      - unfold cLookupRef in LK. rewrite LK in K. inversion K; subst. auto.
      - rewrite OT in K by congruence. eapply NN1; eauto.
      - rewrite OT in K by congruence. eapply NN1; eauto. }
    set (g4 := putMap (nmaps g) c g3) in *.
    assert (L4 : nmaps g4 = S (nmaps g)) by (unfold g4; rewrite putMap_len, SM; lia).
    assert (M4 : forall i, i < nmaps g -> mapOf g4 i = mapOf g i).
    { intros i Li. unfold g4. rewrite putMap_other by lia. rewrite (mapOf_maps g1 g3 _ SM). now apply (frame_map _ _ _ _ F1). }
    assert (F4 : frame nobody nothing g g4).
    { constructor.
      - lia.
      - unfold g4, putMap. split; cbn [bufs]; rewrite SB, B1; auto.
      - split; [unfold g4; now apply putMap_wfg; [apply I3|]|]. split; [rewrite L4; unfold g4; cbn [putMap cur]; lia|].
        intros i. unfold g4. destruct (Nat.eq_dec i (nmaps g)) as [->|NE]; [rewrite putMap_same by auto; auto|rewrite putMap_other by auto; apply I3].
      - intros i Li _. auto.
      - intros i Li. rewrite M4 by auto. apply grown_refl. }
    destruct (emptyVec g4) as [ev g5] eqn:EV. unfold emptyVec in EV.
    destruct (vectorOf_spec nobody nothing [] g4 ev g5 (fr_inv _ _ _ _ F4) EV) as (F5 & OE & BE & VE & RE & ME & CE & NE).
    destruct (gen (bcase b) [ev] g5) as [[vs g6]| | |] eqn:EG; try discriminate. cbn [bind] in H.
    destruct (unionLoop ords fuel gen tag base bs g6) as [[rest g7]| | |] eqn:EU; try discriminate. cbn [bind] in H. inversion H; subst res g7; clear H.
    assert (C4 : cur g4 = nmaps g) by (unfold g4; cbn [putMap cur]; auto).
    rewrite C4 in VE, CE.
    assert (F05 : frame nobody nothing g g5) by (eapply frame_trans; eauto).
    assert (L5 : nmaps g5 = S (nmaps g)) by (rewrite ME; auto).
    assert (N4 : nbufs g4 = nbufs g) by (unfold g4, putMap; cbn [bufs]; rewrite SB; congruence).
    destruct (Hgen (bcase b) O1 c g5 ev vs g6 (nmaps g)) as (F6 & C6 & S6 & G6); auto.
    { apply (fr_inv _ _ _ _ F5). }
    { intros k z K. destruct (NEWc _ _ K) as [K'|(K' & _)]; eauto. apply Hrefs. cbn [refsM]. apply in_or_app; auto. }
    { rewrite ME, L4. lia. }
    { rewrite (mapOf_maps g4 g5 _ ME). unfold g4. now apply putMap_same. }
    assert (F06 : frame nobody nothing g g6).
    { destruct F05 as [T1 T2 T3 T4 T5]. destruct F6 as [U1 U2 U3 U4 U5]. constructor; auto.
      - lia.
      - apply (keepB_trans (nbufs g) (nbufs g5) g g5 g6); auto. destruct T2. lia.
      - intros i Li _. rewrite U4 by lia. apply T4; auto.
      - intros i Li. rewrite U4 by lia. apply T5. auto. }
    pose proof (fr_maps _ _ _ _ F06) as LM6. pose proof (fr_maps _ _ _ _ F6) as LM56. pose proof (proj1 (fr_bufs _ _ _ _ F06)) as LB6. pose proof (proj1 (fr_bufs _ _ _ _ F6)) as LB56.
    destruct (IH g6 base c0 rest g') as (F7 & C7 & S7 & G7); auto.
    { apply (fr_inv _ _ _ _ F06). }
    { lia. }
    { intros s k. rewrite (frame_map _ _ _ _ F06 LB). auto. }
    assert (VV : Forall (fun v => okS g6 (vdata v) /\ nbufs g <= sbuf (vdata v) /\ nmaps g <= vcons v < nmaps g6 /\
       uGood (map bcase (b :: bs)) None c0 (mapOf g6 (vcons v)) (readS g6 (vdata v))) vs).
    { destruct (existsb isFail (ucase_members (bcase b))) eqn:NFL; [rewrite (Hfail _ _ _ _ _ NFL EG); constructor|].
      eapply Forall_impl; [|exact G6]. intros v (V1 & V2 & V3 & V4 & V5 & V6 & V7). split; auto. split; [lia|]. split; [lia|].
      exists (bcase b), y, c. split; [now left|]. split; auto. split; [unfold cLookupRef in *; auto|].
      split; [destruct Y as [Y|(-> & _)]; auto|]. split; [intros s k z K; auto|].
      split; [|split; [|split; [exact V7|exact Logic.I]]].
      2:{ intros k z K. destruct (NEWc _ _ K) as [K'|(K1 & K2 & K3)]; auto. right. split; auto. split; auto.
          pose proof (localRef_In _ _ K1) as (S0 & _). apply (tag_fits S0 (bcase b)); auto. unfold u64 in YT. rewrite Z.mod_small in YT by (unfold two64; lia). exact YT. }
      intros k z K. destruct (V6 _ _ K) as [K'|K']; auto. destruct (NEWc _ _ K') as [K2|(K2 & _)]; auto.
      right. left. apply in_or_app; auto. }
    split; [eapply frame_trans; eauto|]. split; [|split].
    + destruct C7 as [C7|C7]; [|right; lia]. rewrite C7. destruct C6 as [C6|[C6|C6]]; right; lia.
    + rewrite map_app. apply safe_app. split; [|split; auto].
      * eapply safe_ext; [|exact S6]. intros s Is. apply in_map_iff in Is as (d & <- & Id). rewrite Forall_forall in VV.
        destruct (VV _ Id) as (A1 & _). eapply keep_ok; [apply (fr_bufs _ _ _ _ F7)|apply A1|auto].
      * apply Forall_forall. intros s Is. apply Forall_forall. intros t It E.
        apply in_map_iff in Is as (d & <- & Id). apply in_map_iff in It as (d' & <- & Id'). rewrite Forall_forall in VV, G7.
        destruct (VV _ Id) as ((A1 & _) & _). destruct (G7 _ Id') as (_ & A2 & _). lia.
    + apply Forall_app. pose proof (fr_maps _ _ _ _ F7). split.
      * eapply Forall_impl; [|exact VV]. intros v (V1 & V2 & V3 & V4). split; [eapply keep_ok; [apply (fr_bufs _ _ _ _ F7)|apply V1|auto]|].
        split; auto. split; [lia|]. eapply uGood_frame; eauto; lia.
      * eapply Forall_impl; [|exact G7]. intros v (V1 & V2 & V3 & V4). split; auto. split; [lia|]. split; [lia|]. eapply uGood_weak; [|exact V4]. intros q Q. now right.
Qed.

(** A length that is short enough fits its field. *)
Hypothesis Hlen : forall f, len = Some (LRef f) -> rscope f = "" -> forall x, (0 <= x < lim)%Z -> widthOK r strct (rname f) x.
Lemma union_spec : memSpec M (gmember grow ords sel r fuel callS strct gen M).
Proof.
  destruct union_parts as (RT & RL & SZ & LF & (iv & EI) & NE & DN & P).
  intros g mvs g' I LOC E. cbn [gmember] in E. destruct (NewBranches r strct tag cs) as [bs| | |] eqn:EB; try discriminate. cbn [bind] in E.
  pose proof (branches_in r strct tag cs sz cst bs iv Hint SZ LF NE EI EB) as BI.
  set (c0 := mapOf g (cur g)) in *. cbn [refsF].
  destruct (unionOptions bs (cLookupRef c0 tag)) as [opts|] eqn:EO.
  2:{ inversion E; subst. split; [now apply frame_refl|]. split; auto. split; [cbn; auto|]. split; auto. }
  assert (FO : Forall (optOK c0) opts).
  { apply Forall_forall. intros b Ib. unfold unionOptions in EO. destruct (cLookupRef c0 tag) as [x0|] eqn:EX.
    - destruct (Lookup bs x0) as [b'|] eqn:EL; [|discriminate]. inversion EO; subst opts. destruct Ib as [<-|[]].
      unfold Lookup in EL. apply find_some in EL as (Ib & CB). destruct (BI _ Ib) as (A & B & C). split; auto. split; auto. split; auto.
      intros y Y. congruence.
    - inversion EO; subst opts. destruct (BI _ Ib) as (A & B & C). split; auto. split; auto. split; auto. intros y Y. congruence. }
  assert (FC : incl (map bcase opts) cs) by (intros q Q; apply in_map_iff in Q as (b & <- & Ib); rewrite Forall_forall in FO; apply (FO b Ib)).
  destruct (cloneMap_spec ords Hords (cur g) g (proj1 I)) as (j & g1 & c1 & E1 & -> & AM & M1 & W1 & L1). rewrite E1 in E. cbn [bind] in E.
  assert (NN1 : nonneg c1) by (intros s k x K; rewrite L1 in K; eapply (proj2 (proj2 I)); eauto).
  destruct (adds_frame nobody nothing g g1 [c1] I AM W1) as (F1 & C1 & B1); [intros c' [<-|[]]; auto|].
  assert (LM1 : nmaps g1 = S (nmaps g)) by (destruct AM as (AM & _); rewrite AM, app_length; cbn; lia).
  destruct (unionLoop ords fuel gen tag (nmaps g) opts g1) as [[results g2]| | |] eqn:EU; try discriminate. cbn [bind] in E.
  destruct (unionLoop_spec opts g1 (nmaps g) c0 results g2) as (F2 & C2 & S2 & G2); auto.
  { apply (fr_inv _ _ _ _ F1). }
  { lia. }
  { intros s k. rewrite M1. apply L1. }
  { intros k x K. now apply (LOC k x). }
  assert (F02 : frame nobody nothing g g2) by (eapply frame_trans; eauto).
  assert (C02 : cur g2 = cur g \/ nmaps g <= cur g2) by (destruct C2 as [->|C2]; [auto|right; lia]).
  assert (NF : forall k x, cLookup c0 "" k = Some x -> ~ In k (fieldNames M)) by (intros k x K; apply (LOC k x K); exact Logic.I).
  pose proof (fr_inv _ _ _ _ F02) as I2.
  assert (CL : (exists f, len = Some (LRef f)) \/ (exists i, len = Some (LLeftover i)) \/ len = None) by (destruct len as [[f|i]|]; eauto).
  destruct CL as [(f & EL)|[(i & EL)|EL]]; rewrite EL in E.
  - assert (FV : Forall (fun v => vcons v < nmaps g2) results) by (eapply Forall_impl; [|exact G2]; intros v (_ & _ & V & _); lia).
    pose proof (lenconstrain_inv f results g2 mvs g' I2 FV E) as I3.
    destruct (lenconstrain_spec ords Hords f results g2 (proj1 I2) FV) as (res & g3 & E3 & (news & M3) & C3 & B3 & _ & W3 & F3).
    rewrite E3 in E. inversion E; subst res g3; clear E.
    assert (M23 : forall i, i < nmaps g2 -> mapOf g' i = mapOf g2 i) by (intros i Li; unfold mapOf; rewrite M3; now apply app_nth1).
    assert (F23 : frame nobody nothing g2 g').
    { constructor; auto.
      - rewrite M3, app_length. lia.
      - split; rewrite B3; auto.
      - intros i Li. rewrite M23 by auto. apply grown_refl. }
    assert (F03 : frame nobody nothing g g') by (eapply frame_trans; eauto).
    split; [now apply frame_none|]. split; [rewrite C3; auto|]. split; [|split; [discriminate|]].
    + assert (SF : safe g2 (map vdata (filter (lenFits g2 f) results))).
      { clear - S2. induction results as [|v vs IH]; cbn; auto. destruct S2 as (A & B). destruct (lenFits g2 f v); [|auto]. cbn. split; auto.
        rewrite Forall_forall in *. intros x Ix. apply A. apply in_map_iff in Ix as (w & <- & Iw). apply filter_In in Iw as (Iw & _). now apply in_map. }
      assert (EM : map vdata mvs = map vdata (filter (lenFits g2 f) results)).
      { clear - F3. induction F3 as [|v w vs ws (A & _) _ IH]; cbn; auto. now rewrite A, IH. }
      rewrite EM. eapply safe_ext; [|exact SF]. intros s _. unfold capOf. now rewrite B3.
    + apply Forall_forall. intros w Iw.
      assert (X : exists v, In v results /\ lenFits g2 f v = true /\ vdata w = vdata v /\ nmaps g2 <= vcons w < nmaps g' /\
        cLookupRef (mapOf g' (vcons w)) f = Some (Z.of_nat (slen (vdata v))) /\
        forall s k, (s, k) <> (rscope f, rname f) -> cLookup (mapOf g' (vcons w)) s k = cLookup (mapOf g2 (vcons v)) s k).
      { clear - F3 Iw. remember (filter (lenFits g2 f) results) as fl eqn:EF.
        assert (FI : forall v, In v fl -> In v results /\ lenFits g2 f v = true) by (intros v Iv; rewrite EF in Iv; now apply filter_In).
        clear EF. induction F3 as [|v w' vs ws A _ IH]; [destruct Iw|]. destruct Iw as [->|Iw].
        - exists v. destruct (FI v) as (X1 & X2); [now left|]. auto.
        - apply IH; auto. intros v' Iv. apply FI. now right. }
      destruct X as (v & Iv & LFv & VD & VC & LK3 & OT3). rewrite Forall_forall in G2. destruct (G2 _ Iv) as (V1 & V2 & V3 & V4).
      pose proof (readS_length _ _ V1) as RLN.
      assert (RD : readS g' (vdata w) = readS g2 (vdata v)) by (unfold readS; now rewrite B3, VD).
      split.
      { split; [unfold okS, capOf in *; now rewrite B3, VD|]. split; [rewrite VD, <- B1; lia|]. split; [lia|]. right.
        pose proof (fr_maps _ _ _ _ F02). lia. }
      rewrite RD. apply uGood_goodM; auto; [apply I3|]. rewrite EL.
      assert (BL : blen (readS g2 (vdata v)) = Z.of_nat (slen (vdata v))) by (unfold blen; now rewrite RLN).
      assert (EX3 : extends (mapOf g2 (vcons v)) (mapOf g' (vcons w))).
      { intros s k z K. destruct (string_dec s (rscope f)) as [->|NS]; [destruct (string_dec k (rname f)) as [->|NK]|].
        - unfold lenFits, cLookupRef in *. rewrite K in LFv. apply Z.eqb_eq in LFv. now rewrite LK3, LFv.
        - rewrite OT3 by congruence. auto.
        - rewrite OT3 by congruence. auto. }
      assert (NEW3 : forall s k z, cLookup (mapOf g' (vcons w)) s k = Some z -> cLookup (mapOf g2 (vcons v)) s k = Some z \/
         (s, k) = (rscope f, rname f) /\ z = blen (readS g2 (vdata v))).
      { intros s k z K. destruct (string_dec s (rscope f)) as [->|NS]; [destruct (string_dec k (rname f)) as [->|NK]|].
        - right. unfold cLookupRef in LK3. rewrite LK3 in K. split; auto. congruence.
        - left. rewrite OT3 in K by congruence. auto.
        - left. rewrite OT3 in K by congruence. auto. }
      destruct V4 as (c & x & cb & U1 & U2 & U3 & U4 & U5 & U6 & U7 & U8 & U9). exists c, x, cb. split; auto. split; auto.
      split; [now apply EX3|]. split; auto. split; [intros s k z K; apply EX3, U5, K|]. split; [|split; auto; split].
      * intros k z K. destruct (NEW3 _ _ _ K) as [K'|(K' & _)].
        -- destruct (U6 _ _ K') as [K2|[K2|K2]]; auto. right. left. cbn [refsL] in K2. rewrite app_nil_r in K2. apply in_or_app; auto.
        -- right. left. inversion K'. apply in_or_app. right. cbn [refsL]. now apply In_localRef.
      * intros LD. refine (goodV_more camel r lenient lim gr strct _ _ _ _ _ U8 EX3 _ LD); auto.
        intros s k z K. destruct (NEW3 _ _ _ K) as [K'|(K' & ->)]; auto. right. intros S0. inversion K' as [[E1' E2']]. split.
        -- intros J. rewrite disjC_spec in DN. apply (DN (rname f) (rname f)); auto.
           ++ apply in_or_app. right. rewrite EL. cbn [refsL]. apply In_localRef. congruence.
           ++ eapply case_names; eauto.
        -- apply (Hlen f EL); [congruence|]. pose proof (blen_nonneg (readS g2 (vdata v))). lia.
      * cbn [lenDone]. rewrite LK3. congruence.
  - discriminate.
  - inversion E; subst mvs g'. split; [now apply frame_none|]. split; auto. split; auto. split; [discriminate|].
    eapply Forall_impl; [|exact G2]. intros v (V1 & V2 & V3 & V4). split.
    + split; auto. split; [rewrite <- B1; auto|]. split; [lia|]. right. lia.
    + apply uGood_goodM; auto; [apply I2|]. rewrite EL. eapply uGood_weak; eauto.
Qed.
End One.

(** Members without fields. *)
Lemma other_spec : forall gen m, match m with MField _ _ | MUnion _ _ _ _ => False | _ => True end ->
  memSpec m (gmember grow ords sel r fuel callS strct gen m).
Proof.
  intros gen m Hm g mvs g' I LOC E. destruct m as [| | | |]; try contradiction; cbn [gmember refsF] in *.
  - destruct (emptyVec g) as [v g1] eqn:EV. inversion E; subst. unfold emptyVec in EV.
    destruct (vectorOf_spec (eq (cur g)) (fun k => In k []) [] g v g' I EV) as (F & OK & B & V & RD & MM & C & N).
    split; auto. split; auto. split; [now apply safe_small|]. split; auto. constructor; auto. split.
    + split; auto. split; [lia|]. rewrite V. split; [rewrite MM; apply I|auto].
    + rewrite V, RD, (mapOf_maps g g' _ MM). unfold TvGood.goodM. cbn [dropM fieldNames]. split; [intros s k x K; auto|]. split; auto.
      intros _. split; auto. intros _ cenv fs pos tail W AG AL GT. rewrite GT by auto. exists fs. split; [constructor|]. intros k x K [].
  - inversion E; subst. split; [now apply frame_refl|]. repeat (split; [solve [cbn; auto]|]). constructor.
  - destruct (emptyVec g) as [a g1] eqn:EV. destruct (randbytes 1 7 g1) as [b g2] eqn:ER. destruct (vectorOf b g2) as [v g3] eqn:EV2. inversion E; subst.
    unfold emptyVec in EV.
    destruct (vectorOf_spec (eq (cur g)) (fun k => In k []) [] g a g1 I EV) as (F & OK & B & V & RD & MM & C & N).
    destruct (randbytes_spec 1 7 _ _ _ ltac:(lia) ER) as (_ & SH).
    pose proof (frame_sameH (eq (cur g)) (fun k => In k []) g1 g2 (fr_inv _ _ _ _ F) SH) as F2. destruct SH as (SM & SC & SB).
    destruct (vectorOf_spec (eq (cur g)) (fun k => In k []) b g2 v g' (fr_inv _ _ _ _ F2) EV2) as (F3 & OK3 & B3 & V3 & RD3 & MM3 & C3 & N3).
    assert (F13 : frame (eq (cur g)) (fun k => In k []) g1 g') by (eapply frame_trans; eauto).
    assert (F03 : frame (eq (cur g)) (fun k => In k []) g g') by (eapply frame_trans; eauto).
    assert (CC : cur g2 = cur g) by congruence.
    assert (ME : mapOf g' (cur g) = mapOf g (cur g)) by (apply mapOf_maps; congruence).
    assert (NM : nmaps g' = nmaps g) by congruence.
    destruct (keep_ok _ _ _ _ (fr_bufs _ _ _ _ F13) (proj1 OK) OK) as (K1 & K2 & _).
    assert (GD : forall d, goodM MIgnore (mapOf g (cur g)) (mapOf g (cur g)) d).
    { intros d. unfold TvGood.goodM. cbn [dropM fieldNames]. split; [intros s k x K; auto|]. split; auto.
      intros _. split; auto. intros _ cenv fs pos tail W AG AL GT. rewrite GT by auto. exists fs. split; [constructor|]. intros k x K []. }
    split; auto. split; [left; congruence|]. split; [|split; [discriminate|]].
    + cbn [map]. apply safe_new; [|now apply safe_small]. intros s [<-|[]]. rewrite B3, B, SB, N. lia.
    + constructor; [|constructor; auto]; (split; [|]).
      * split; auto. split; [lia|]. rewrite V, NM. split; [apply I|auto].
      * rewrite V, ME. apply GD.
      * split; auto. split; [rewrite B3, SB, N; lia|]. rewrite V3, CC, NM. split; [apply I|auto].
      * rewrite V3, CC, ME. apply GD.
Qed.
End Union.
