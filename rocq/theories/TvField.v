(** Generation of a field, continued: the promise of each field type. *)
From Coq Require Import ZArith String List Bool Lia Arith ZifyBool ZifyNat Permutation.
From Verif Require Import Base Ast IntervalsModel InspectModel InspectSpec InspectProofs BranchProofs GoLang GenModel GenCheck WireSpec WireProofs WireFacts
  TvModel TvConstraints TvHeap TvFacts TvClass TvGood TvLeaf TvFrame TvFields.
Import ListNotations.
Open Scope string_scope.
Open Scope list_scope.
Open Scope nat_scope.

Lemma safe_small : forall g l, List.length l <= 1 -> safe g l.
Proof. intros g [|a [|b l]] L; cbn in *; auto; lia. Qed.

Section Field.
Variable camel : string -> string.
Variable r : resolver.
Variable lenient : Prop.
Variable lim : Z.
Variable gr sg : string -> bool.
Variable grow : nat -> nat -> nat.
Variable ords : nat -> uorders.
Hypothesis Hords : forall n, goodOrders (ords n).
Variable sel : nat -> list vec -> list vec.
Hypothesis Hsel : forall n vs, exists rest, Permutation (sel n vs ++ rest) vs.
Notation cv := (Constant r).
Notation sv := (Struct r).
Notation Enc := (enc camel cv sv lenient).
Notation EncN := (encN camel cv sv lenient).
Notation EncMs := (encMs camel cv sv lenient).
Variable fuel : nat.
Variable callS : struct -> gst -> outcome (list vec * gst).
Hypothesis Hcall : forall nm s, StructNonExtern r nm = Ok s -> sname s = nm /\ (greedyMs gr (members_of s) = true -> gr nm = true) /\
  structSpec camel r lenient lim gr sg s (callS s).

Variable strct : struct.
Notation ctxs := (scontexts strct).
Notation R := (refsMs (members_of strct)).
Hypothesis Hsmall : countsOK r strct.
Notation goodM := (goodM camel r lenient lim gr strct).
Notation memSpec := (memSpec camel r lenient lim gr sg strct).

Section One.
Variable nm : string.
Variable t : type.
Hypothesis Hok : fieldOK camel r gr sg strct nm t = true.
Hypothesis Hin : In (nm, t) (flat_map allFields (members_of strct)).

Lemma name_in : In nm (namesMs (members_of strct)).
Proof.
  unfold namesMs. pose proof Hin as H. apply in_flat_map in H as (m & Im & I). apply in_flat_map. exists m. split; auto. clear Im.
  revert I. induction m as [n' t'|u tag len cs IH| | |] using member_ind'; cbn [fieldNames allFields]; try contradiction.
  - intros [E|[]]. inversion E; subst. now left.
  - intros I. apply in_flat_map in I as ([l ms] & Ic & I). apply in_flat_map in I as (m & Im & I).
    rewrite Forall_forall in IH. specialize (IH _ Ic). cbn [ucase_members] in IH. rewrite Forall_forall in IH.
    apply in_flat_map. exists (UCase l ms). split; auto. apply in_flat_map. eauto.
Qed.
Lemma refs_name : ~ In nm (refsT t).
Proof.
  unfold fieldOK in Hok. apply andb_true_iff in Hok as (_ & D). rewrite disjC_spec in D. intros I. apply (D nm nm); auto. now left.
Qed.

Lemma goodM_field : isStruct t = false -> forall c0 c2 d, extends c0 c2 ->
  (forall k x, cLookup c2 "" k = Some x -> cLookup c0 "" k = Some x \/ In k (refsT t) /\ widthOK r strct k x) ->
  ((blen d < lim)%Z -> (forall k x, cLookup c2 "" k = Some x -> widthOK r strct k x) ->
   forall cenv fs pos tail, world camel strct cenv fs -> agreeG camel ctxs cenv c2 -> agreeL camel fs c2 (fun k => In k (refsT t)) ->
     (greedyM gr (MField nm t) = true -> tail = []) ->
     exists v, Enc cenv pos fs t v d tail /\ forall x, cLookup c2 "" nm = Some x -> v = VInt x) ->
  goodM (MField nm t) c0 c2 d.
Proof.
  intros NS c0 c2 d EX NEW H. unfold TvGood.goodM. cbn [dropM refsM refsF fieldNames]. rewrite NS. split; auto. split.
  { intros k x K. destruct (NEW _ _ K) as [|(A & _)]; auto. }
  intros L. split. { intros k x K. destruct (NEW _ _ K) as [|(_ & A)]; auto. }
  intros WD cenv fs pos tail W AG AL GT. destruct (H L WD cenv fs pos tail W AG) as (v & EV & VX); auto.
  { intros k x K I. apply AL; auto. split; auto. intros [<-|[]]. now apply refs_name. }
  exists (setField (camel nm) v fs). split; [now constructor|]. intros k x K [<-|[]]. rewrite (VX _ K). apply set_lookup. apply W, name_in.
Qed.

(** A leaf: one vector with the current constraints. *)
Lemma leaf_spec : isStruct t = false -> refsT t = [] -> singleM sg (MField nm t) = true ->
  (forall g mvs g', inv g -> (forall k x, cLookup (mapOf g (cur g)) "" k = Some x -> In k R) -> field grow ords sel r fuel callS nm t g = Ok (mvs, g') ->
     exists d g1 v, sameH g g1 /\ vectorOf d g1 = (v, g') /\ mvs = [v] /\
       ((forall k x, cLookup (mapOf g (cur g)) "" k = Some x -> widthOK r strct k x) -> forall cenv fs pos tail, exists x, Enc cenv pos fs t x d tail /\
          forall y, cLookup (mapOf g (cur g)) "" nm = Some y -> x = VInt y)) ->
  memSpec (MField nm t) (field grow ords sel r fuel callS nm t).
Proof.
  intros NS NR SG H g mvs g' I LOC E. destruct (H g mvs g' I) as (d & g1 & v & S & V & -> & X); auto. { intros k x K. now apply (LOC k x). }
  clear H E. cbn [refsF]. rewrite NR.
  pose proof (frame_sameH nobody nothing g g1 I S) as F1. destruct S as (SM & SC & SB).
  destruct (vectorOf_spec nobody nothing d g1 v g' (fr_inv _ _ _ _ F1) V) as (F2 & OK & B2 & C2 & R2 & M2 & CU2 & N2).
  assert (F : frame nobody nothing g g') by (eapply frame_trans; eauto).
  assert (ME : mapOf g' (cur g) = mapOf g (cur g)) by (apply (frame_map _ _ _ _ F); apply I).
  split; [now apply frame_none|]. split; [left; congruence|]. split; [now apply safe_small|]. split; [auto|]. constructor; auto.
  split.
  - split; auto. split; [rewrite B2, SB; auto|]. rewrite C2, SC. split; [rewrite M2, SM; apply I|auto].
  - rewrite C2, SC, ME, R2. apply goodM_field; auto; try (intros s k x K; exact K). 
Qed.

Lemma not_ref : (forall sz cst, t <> TInt sz cst) -> ~ In nm R.
Proof.
  intros N I. unfold fieldOK in Hok. apply andb_true_iff in Hok as (A & _). apply andb_true_iff in A as (_ & A).
  apply memb_In in I. destruct t as [sz cst| | | | | |]; rewrite ?I in A; try discriminate. now apply (N sz cst).
Qed.
Lemma type_ok : typeOK r gr sg ctxs t = true.
Proof. unfold fieldOK in Hok. apply andb_true_iff in Hok as (A & _). now apply andb_true_iff in A as (A & _). Qed.

(** An array of [Z.to_nat n] elements. *)
Lemma array_spec : forall b n g c1 g3 iv g1, inv g -> (forall k x, cLookup (mapOf g (cur g)) "" k = Some x -> In k R) ->
  elemOK r gr sg ctxs b = true -> isStruct t = false -> (forall sz cst, t <> TInt sz cst) ->
  emptyVec g = (iv, g1) -> frame (eq (cur g)) (fun k => In k (refsT t)) g1 g3 -> cur g3 = cur g -> bufs g3 = bufs g1 -> nmaps g3 = nmaps g1 -> mapOf g3 (cur g) = c1 ->
  (forall vs cenv fs pos d tail, List.length vs = n -> world camel strct cenv fs -> agreeG camel ctxs cenv c1 -> agreeL camel fs c1 (fun k => In k (refsT t)) ->
     (greedyM gr (MField nm t) = true -> tail = []) -> EncN cenv pos fs b vs d tail -> exists v, Enc cenv pos fs t v d tail) ->
  forall mvs g', arrayLoop grow ords sel (field grow ords sel r fuel callS "" b) n [iv] g3 = Ok (mvs, g') ->
  frame (eq (cur g)) (fun k => In k (refsT t)) g g' /\ (cur g' = cur g \/ nmaps g <= cur g') /\
  safe g' (map vdata mvs) /\ (singleM sg (MField nm t) = true -> List.length mvs <= 1) /\
  Forall (fun mv => newV g g' mv /\ goodM (MField nm t) (mapOf g (cur g)) (mapOf g' (vcons mv)) (readS g' (vdata mv))) mvs.
Proof.
  intros b n g c1 g3 iv g1 I LOC EO NS NI EV F3 C3 B3 NM3 M3 HE mvs g' H.
  unfold emptyVec in EV. destruct (vectorOf_spec nobody nothing [] g iv g1 I EV) as (F1 & OK & B1 & V1 & R1 & M1 & CU1 & N1).
  assert (FG : frame (eq (cur g)) (fun k => In k (refsT t)) g g3) by (eapply frame_trans; [apply frame_none; exact F1|exact F3| |]; auto).
  pose proof (fr_inv _ _ _ _ FG) as I3. pose proof (fr_maps _ _ _ _ FG) as MM3.
  pose proof (fr_grow _ _ _ _ FG (cur g) (proj1 (proj2 I))) as GR. rewrite M3 in GR.
  destruct (arrayLoop_spec camel r lenient lim grow ords Hords sel Hsel ctxs (nbufs g) (cur g) (nmaps g) c1 b
    (field grow ords sel r fuel callS "" b) (elem_spec camel r lenient lim gr sg grow ords Hords sel Hsel fuel callS Hcall ctxs b EO) n 0 [iv] g3 mvs g') as (F & C & L & G); auto.
  { rewrite B3. lia. }
  { rewrite C3, M3. intros k x K. auto. }
  { constructor; auto. unfold acc. rewrite V1. rewrite M3. split; [unfold okS, capOf in *; now rewrite B3|]. split; [lia|].
    split; [rewrite NM3, M1; apply I|]. split; auto. split; [intros s k x K; auto|]. split; [intros k x K; auto|].
    intros _ cenv fs pos tail _ _. exists []. split; auto. unfold readS in *. rewrite B3. rewrite R1. constructor. }
  rewrite C3 in C. rewrite Nat.add_0_r in G.
  split; [eapply frame_trans; [exact FG|exact F| |]; [intros i _ []|intros k []]|].
  split; [destruct C as [->|C]; auto; right; lia|]. split; [apply safe_small; now rewrite map_length|]. split; auto.
  eapply Forall_impl; [|exact G]. intros u (A1 & A2 & A3 & A4 & A5 & A6 & A7). split; [repeat split; auto; apply A1|].
  assert (NEW : forall k x, cLookup (mapOf g' (vcons u)) "" k = Some x -> cLookup (mapOf g (cur g)) "" k = Some x \/ In k (refsT t) /\ widthOK r strct k x).
  { intros k x K. apply A6 in K. destruct (proj2 GR _ _ _ K) as [K'|(K1 & K2)]; auto. right. specialize (K2 eq_refl). split; auto. apply Hsmall; auto.
    unfold countNames. apply in_flat_map. exists (nm, t). auto. }
  apply goodM_field; auto.
  - intros s k x K. apply A5, GR, K.
  - intros LN WD cenv fs pos tail W AG AL GT.
    destruct (A7 LN cenv fs pos tail (proj1 W) AG) as (vs & LV & EN).
    destruct (HE vs cenv fs pos (readS g' (vdata u)) tail) as (v & EV'); auto.
    + eapply agreeG_ext; [apply extendsG_of; exact A5|exact AG].
    + intros k x K. apply AL. apply A5, K.
    + exists v. split; auto. intros x K. exfalso. destruct (NEW _ _ K) as [K'|(K' & _)]; [apply (not_ref NI); eauto|now apply refs_name].
Qed.

Lemma goodCount_len : forall i (vs : list value), goodCount r i = true -> Integer r i = Ok (blen vs) -> int_value cv i = Some (blen vs).
Proof. intros i vs _ H. rewrite Integer_value in H. destruct (int_value cv i); congruence. Qed.

End One.

Lemma field_spec : forall nm t, fieldOK camel r gr sg strct nm t = true -> In (nm, t) (flat_map allFields (members_of strct)) ->
  memSpec (MField nm t) (field grow ords sel r fuel callS nm t).
Proof.
  intros nm t Hok Hin. pose proof (type_ok nm t Hok) as TO. destruct t as [sz cst| | | |sn|b i|b [[f|i]|]].
  - apply (leaf_spec nm _ Hok Hin); auto. intros g mvs g' I LOC E. cbn [field] in E. unfold intType in E.
    assert (GS : goodSize sz = true) by (destruct cst; cbn [typeOK] in TO; [now apply andb_true_iff in TO|auto]).
    destruct (cLookup (mapOf g (cur g)) "" nm) as [x|] eqn:EX.
    + cbn [bind] in E. destruct (vectorOf (intbytes x sz) g) as [v g2] eqn:V. inversion E; subst mvs g2.
      exists (intbytes x sz), g, v. split; [apply sameH_refl|]. split; auto. split; auto. intros WD cenv fs pos tail.
      destruct (intbytes_spec x sz GS) as (B & L).
      { split; [eapply (proj2 (proj2 I)); eauto|]. eapply WD; eauto. }
      exists (VInt x). split; [constructor; auto; eapply WD; eauto|]. congruence.
    + destruct cst as [l|].
      * destruct (Intervals r l) as [s| | |] eqn:EI; try discriminate. cbn [bind] in E.
        destruct (randomIn fuel s g) as [[x g1]| | |] eqn:ER; try discriminate. cbn [bind] in E.
        destruct (vectorOf (intbytes (s64 x) sz) g1) as [v g2] eqn:V. inversion E; subst mvs g2.
        cbn [typeOK] in TO. apply andb_true_iff in TO as (_ & LF). apply listFits_spec in LF as (GL & BD).
        destruct (Intervals_ok r l s GL EI) as (Ws & Cs & _).
        destruct (randomIn_spec fuel s g x g1 Ws (fun y CY => proj2 (BD y (proj1 (Cs y) CY))) ER) as (CX & S).
        apply Cs in CX. pose proof (BD _ CX) as BX. rewrite s64_id in V by lia.
        destruct (intbytes_spec x sz GS) as (B & L); [lia|].
        exists (intbytes x sz), g1, v. split; auto. split; auto. split; auto. intros WD cenv fs pos tail.
        exists (VInt x). split; [constructor; auto; intros l' E'; inversion E'; subst; auto|]. congruence.
      * destruct (randint sz g) as [d g1] eqn:RI. cbn [bind] in E. destruct (vectorOf d g1) as [v g2] eqn:V. inversion E; subst mvs g2.
        destruct (randint_spec _ _ _ _ GS RI) as ((y & B) & L & S). exists d, g1, v. split; auto. split; auto. split; auto. intros.
        exists (VInt y). split; [constructor; auto; discriminate|]. congruence.
  - apply (leaf_spec nm _ Hok Hin); auto. intros g mvs g' I LOC E. cbn [field] in E. unfold intType in E.
    destruct (cLookup (mapOf g (cur g)) "" nm) as [x|] eqn:EX.
    { exfalso. apply (not_ref nm _ Hok Hin); [intros ? ?; discriminate|]. eauto. }
    destruct (randint 8 g) as [d g1] eqn:RI. cbn [bind] in E. destruct (vectorOf d g1) as [v g2] eqn:V. inversion E; subst mvs g2.
    destruct (randint_spec 8 _ _ _ eq_refl RI) as ((y & B) & L & S). exists d, g1, v. split; auto. split; auto. split; auto. intros.
    exists (VInt y). split; [constructor; auto|]. congruence.
  - apply (leaf_spec nm _ Hok Hin); auto. intros g mvs g' I LOC E. cbn [field] in E. unfold emptyVec in E.
    destruct (vectorOf [] g) as [v g2] eqn:V. inversion E; subst mvs g2. exists [], g, v. split; [apply sameH_refl|]. split; auto. split; auto.
    intros WD cenv fs pos tail. exists (VInt pos). split; [constructor|]. intros y K. exfalso. apply (not_ref nm _ Hok Hin); [intros ? ?; discriminate|]. eauto.
  - apply (leaf_spec nm _ Hok Hin); auto. intros g mvs g' I LOC E. cbn [field] in E.
    destruct (randnulterm 2 20 g) as [d g1] eqn:RN. destruct (vectorOf d g1) as [v g2] eqn:V. inversion E; subst mvs g2.
    destruct (randnulterm_spec 2 20 g d g1 ltac:(lia) RN) as ((s & -> & N) & S). exists (s ++ [0%Z]), g1, v. split; auto. split; auto. split; auto.
    intros WD cenv fs pos tail. exists (VStr s). split; [now constructor|]. intros y K. exfalso. apply (not_ref nm _ Hok Hin); [intros ? ?; discriminate|]. eauto.
  - intros g mvs g' I LOC E. cbn [field] in E. destruct (StructNonExtern r sn) as [s| | |] eqn:ES; try discriminate. cbn [bind] in E.
    destruct (Hcall sn s ES) as (SN & GN & SP). destruct (SP g mvs g' I E) as (F & C & NL & S & L1 & G).
    split; [now apply frame_none|]. split; auto. split; auto. split; [cbn [singleM]; rewrite <- SN; auto|].
    eapply Forall_impl; [|exact G]. intros v (V1 & V2 & V3 & V4 & V5 & V6). split; [repeat split; auto; try apply V1; lia|].
    unfold TvGood.goodM. cbn [dropM isStruct refsM refsF refsT fieldNames]. split; auto.
    split; [intros k x K; rewrite V4 in K; discriminate|]. intros L. split; [intros k x K; rewrite V4 in K; discriminate|].
    intros _ cenv fs pos tail W A _ GT. cbn [typeOK] in TO.
    destruct (enc_struct camel r lenient lim gr ctxs sn s (mapOf g' (vcons v)) (readS g' (vdata v)) ES TO V6 L cenv fs pos tail (proj1 W) A) as (x & EX).
    { intros GM. apply GT. cbn [greedyM greedyF]. auto. }
    exists (setField (camel nm) x fs). split; [now constructor|]. intros k y K. rewrite V4 in K. discriminate.
  - intros g mvs g' I LOC E. cbn [field] in E. destruct (emptyVec g) as [iv g1] eqn:EV.
    destruct (Integer r i) as [n| | |] eqn:EI; try discriminate. cbn [bind] in E. cbn [typeOK] in TO. apply andb_true_iff in TO as (TO & GC).
    pose proof EV as EV'. unfold emptyVec in EV'. destruct (vectorOf_spec nobody nothing [] g iv g1 I EV') as (F1 & OK & B1 & V1 & R1 & M1 & CU1 & N1).
    eapply (array_spec nm _ Hok Hin b (Z.to_nat n) g (mapOf g1 (cur g)) g1 iv g1); eauto; try (intros ? ?; discriminate).
    { intros k x K. now apply (LOC k x). }
    { apply frame_refl. apply (fr_inv _ _ _ _ F1). }
    intros vs cenv fs pos d tail LV W AG AL GT EN. exists (VList vs). rewrite Integer_value in EI. unfold goodCount in GC.
    destruct (int_value cv i) as [k|] eqn:EK; [|discriminate]. inversion EI; subst k. econstructor; eauto. unfold blen. lia.
  - intros g mvs g' I LOC E. cbn [field] in E. destruct (emptyVec g) as [iv g1] eqn:EV.
    destruct (randbtw 1 20 g1) as [d0 g2] eqn:ER. cbn [typeOK] in TO. apply andb_true_iff in TO as (TO & RO).
    pose proof EV as EV'. unfold emptyVec in EV'. destruct (vectorOf_spec nobody nothing [] g iv g1 I EV') as (F1 & OK & B1 & V1 & R1 & M1 & CU1 & N1).
    destruct (randbtw_spec 1 20 _ _ _ ltac:(lia) ER) as (BD & (SM & SC & SB)).
    assert (I2 : inv g2) by (eapply inv_same; [exact SM|exact SC|apply (fr_inv _ _ _ _ F1)]).
    assert (LC : cur g < nmaps g2) by (rewrite SM, M1; apply I).
    rewrite V1 in E. destruct (locreate_spec (cur g) f d0 g2 (proj1 I2) LC) as (u & c & EL & GM & LK & UV & OT).
    rewrite EL in E. cbn [bind] in E.
    assert (U0 : (0 <= u)%Z).
    { destruct UV as [UV|(_ & ->)]; [|lia]. unfold cLookupRef in UV. eapply (proj2 (proj2 I2)); eauto. }
    assert (GRW : grown (fun k => In k (refsT (TVar b (Some (LRef f))))) (mapOf g2 (cur g)) c).
    { split.
      - intros s k x K. destruct (string_dec s (rscope f)) as [->|NS]; [destruct (string_dec k (rname f)) as [->|NK]|].
        + unfold cLookupRef in *. destruct UV as [UV|(UV & _)]; congruence.
        + rewrite OT; auto. congruence.
        + rewrite OT; auto. congruence.
      - intros s k x K. destruct (string_dec s (rscope f)) as [->|NS]; [destruct (string_dec k (rname f)) as [->|NK]|].
        + unfold cLookupRef in *. rewrite LK in K. inversion K; subst x. destruct UV as [UV|(UV & ->)]; auto. right. split; [lia|].
          intros SC0. cbn [refsT refsL]. unfold localRef. rewrite SC0. cbn. auto.
        + left. rewrite <- OT; auto. congruence.
        + left. rewrite <- OT; auto. congruence. }
    assert (F3 : frame (eq (cur g)) (fun k => In k (refsT (TVar b (Some (LRef f))))) g1 (putMap (cur g) c g2)).
    { constructor.
      - rewrite putMap_len, SM. auto.
      - unfold putMap. split; cbn [bufs]; rewrite SB; auto.
      - split; [now apply putMap_wfg; [apply I2|]|]. split; [rewrite putMap_len; cbn [putMap cur]; apply I2|].
        intros i. destruct (Nat.eq_dec i (cur g)) as [->|NE]; [rewrite putMap_same by auto|rewrite putMap_other by auto; apply I2].
        intros s k x K. destruct (proj2 GRW _ _ _ K) as [K'|(K' & _)]; [eapply (proj2 (proj2 I2)); eauto|lia].
      - intros i Li NE. rewrite putMap_other by auto. now apply mapOf_maps.
      - intros i Li. destruct (Nat.eq_dec i (cur g)) as [->|NE]; [rewrite putMap_same by auto|rewrite putMap_other by auto; rewrite (mapOf_maps g1 g2 _ SM); apply grown_refl].
        rewrite <- (mapOf_maps g1 g2 _ SM). exact GRW. }
    eapply (array_spec nm _ Hok Hin b (Z.to_nat u) g c (putMap (cur g) c g2) iv g1); eauto; try (intros ? ?; discriminate).
    { intros k x K. now apply (LOC k x). }
    { cbn [putMap cur]. congruence. }
    { rewrite putMap_len. now rewrite SM. }
    { now apply putMap_same. }
    intros vs cenv fs pos d tail LV W AG AL GT EN. exists (VList vs). constructor; auto. assert (blen vs = u) as -> by (unfold blen; lia).
    unfold refers, cLookupRef in *. destruct (String.eqb_spec (rscope f) "") as [S0|S0].
    + rewrite S0 in LK. apply AL; auto. cbn [refsT refsL]. unfold localRef. rewrite S0. cbn. auto.
    + apply (AG (rscope f) (rname f)); auto. unfold refOK in RO. apply orb_true_iff in RO as [RO|RO]; [apply String.eqb_eq in RO; contradiction|now apply memb_In].
  - intros g mvs g' I LOC E. cbn [field] in E. discriminate.
  - intros g mvs g' I LOC E. cbn [field] in E. destruct (emptyVec g) as [iv g1] eqn:EV.
    destruct (randbtw 1 20 g1) as [n g2] eqn:ER. cbn [typeOK] in TO.
    pose proof EV as EV'. unfold emptyVec in EV'. destruct (vectorOf_spec nobody nothing [] g iv g1 I EV') as (F1 & OK & B1 & V1 & R1 & M1 & CU1 & N1).
    destruct (randbtw_spec 1 20 _ _ _ ltac:(lia) ER) as (BD & S).
    pose proof (frame_sameH (eq (cur g)) (fun k => In k (refsT (TVar b None))) g1 g2 (fr_inv _ _ _ _ F1) S) as F2. destruct S as (SM & SC & SB).
    eapply (array_spec nm _ Hok Hin b (Z.to_nat n) g (mapOf g2 (cur g)) g2 iv g1); eauto; try (intros ? ?; discriminate).
    { intros k x K. now apply (LOC k x). }
    { congruence. }
    { now rewrite SM. }
    intros vs cenv fs pos d tail LV W AG AL GT EN. rewrite (GT eq_refl) in *. apply encN_all in EN as (vs' & EA). exists (VList vs'). now constructor.
Qed.
End Field.
