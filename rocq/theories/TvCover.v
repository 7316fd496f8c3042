(** Which test vectors there are: suites that are not empty, and vectors for the
    cases of unions. *)
From Coq Require Import ZArith String List Bool Lia Arith ZifyBool ZifyNat Permutation.
From Verif Require Import Base Ast IntervalsModel IntervalsSpec InspectModel InspectSpec InspectProofs BranchProofs GoLang GenModel GenCheck WireSpec WireProofs WireFacts
  TvModel TvConstraints TvHeap TvFacts TvClass TvLive TvGood TvLeaf TvFrame TvFields TvField TvUnion TvSound.
Import ListNotations.
Open Scope string_scope.
Open Scope list_scope.
Open Scope nat_scope.

(** * One member after another *)
Lemma extend_app : forall grow mem a b g e g', extend grow mem (a ++ b) g = Ok (e, g') ->
  exists e1 g1 e2, extend grow mem a g = Ok (e1, g1) /\ extend grow mem b g1 = Ok (e2, g') /\ e = e1 ++ e2.
Proof.
  intros grow mem. induction a as [|v a IH]; intros b g e g' H.
  - exists [], g, e. auto.
  - cbn [app extend] in *. destruct (mem (setCur (vcons v) g)) as [[mvs g1]| | |]; try discriminate. cbn [bind] in *.
    destruct (prepend grow v mvs g1) as [e1 g2]. destruct (extend grow mem (a ++ b) g2) as [[rest g3]| | |] eqn:E; try discriminate. cbn [bind] in H.
    inversion H; subst. destruct (IH _ _ _ _ E) as (e2 & g4 & e3 & A & B & ->). rewrite A. cbn [bind]. exists (e1 ++ e2), g4, e3.
    split; auto. split; auto. now rewrite app_assoc.
Qed.

Section Keep.
Variable camel : string -> string.
Variable r : resolver.
Variable lenient : Prop.
Variable lim : Z.
Variable gr sg : string -> bool.
Variable grow : nat -> nat -> nat.
Variable ords : nat -> uorders.
Hypothesis Hords : forall n, goodOrders (ords n).
Variable sel : nat -> list vec -> list vec.
Hypothesis Hsel : forall n vs, exists rest, Permutation (sel n vs ++ rest) vs.
Variable strct : struct.
Notation R := (refsMs (members_of strct)).
Hypothesis Hsmall : countsOK r strct.
Notation goodV := (goodV camel r lenient lim gr strct).
Notation goodM := (goodM camel r lenient lim gr strct).
Notation stepOK := (stepOK camel r lenient lim gr sg strct).
Notation Vg := (Vg camel r lenient lim gr strct).
Notation chain := (chain camel r lenient lim gr sg strct).
Variable b0 ci L0 : nat.
Variable cb : cons.

(** Local constraints a state may hold when [m] is generated before [ms]. *)
Definition locs (m : member) (ms : list member) (c : cons) : Prop :=
  forall k x, cLookup c "" k = Some x -> cLookup cb "" k = Some x \/ In k (refsF m ++ refsMs ms).
(** [mem] has a vector, with constraints in [P]. *)
Definition live (m : member) (ms : list member) (mem : gst -> outcome (list vec * gst)) (P : cons -> Prop) : Prop :=
  forall g mvs g', inv g -> (forall k x, cLookup (mapOf g (cur g)) "" k = Some x -> In k R) -> locs m ms (mapOf g (cur g)) ->
    mem g = Ok (mvs, g') -> exists mv, In mv mvs /\ P (mapOf g' (vcons mv)).
Definition holds (T : cons -> bytes -> Prop) (g : gst) (vs : list vec) : Prop :=
  exists v, In v vs /\ T (mapOf g (vcons v)) (readS g (vdata v)).
Definition stable (P : string -> Prop) (T : cons -> bytes -> Prop) : Prop := forall c c' d, T c d -> grown P c c' -> T c' d.

Lemma extend_keep : forall mem m ms, stepOK cb mem m ms -> forall (T T' : cons -> bytes -> Prop) (P : cons -> Prop),
  stable (fun k => In k (refsF m)) T -> stable (fun k => In k (refsF m)) T' ->
  (forall c0 c2 dm dv, goodM m c0 c2 dm -> goodV ms cb c0 dv -> locs m ms c0 -> T c0 dv -> P c2 -> T' c2 (dm ++ dv)) ->
  live m ms (mem m) P ->
  forall vs g e g', inv g -> L0 <= nmaps g -> b0 <= nbufs g -> Forall (Vg b0 ci L0 cb (refsF m ++ refsMs ms) ms g) vs ->
  extend grow (mem m) vs g = Ok (e, g') -> holds T g vs -> holds T' g' e.
Proof.
  intros mem m ms (SP & D1 & D2 & D4 & D3 & GR & DR & CB & RR & UN & CN) T T' P ST ST' STEP LV vs g e g' I LG BG FV H (v & Iv & TV).
  assert (NN : forall k, In k (refsF m) -> ~ In k (namesMs ms)).
  { intros k Ik J. rewrite disjC_spec in D2. apply (D2 k k); auto. destruct m; auto; destruct Ik. }
  apply in_split in Iv as (l & rr & ->). apply extend_app in H as (e1 & g1 & e2 & H1 & H2 & ->).
  apply Forall_app in FV as (FL & FV). 
  pose proof (extend_spec camel r lenient lim gr sg grow ords Hords sel Hsel strct Hsmall b0 ci L0 cb m ms (mem m) SP D1 D2 D4 D3 GR DR CB RR UN CN) as EX.
  destruct (EX l g e1 g1 I LG BG FL H1) as (F1 & _).
  pose proof (fr_inv _ _ _ _ F1) as I1. pose proof (fr_maps _ _ _ _ F1) as M1. pose proof (proj1 (fr_bufs _ _ _ _ F1)) as B1.
  assert (FV1 : Forall (Vg b0 ci L0 cb (refsF m ++ refsMs ms) ms g1) (v :: rr)).
  { eapply Forall_impl; [|exact FV]. intros a A. eapply Vg_frame; eauto. intros k Ik. apply in_or_app; auto. }
  assert (TV1 : T (mapOf g1 (vcons v)) (readS g1 (vdata v))).
  { inversion FV as [|? ? (V1 & _ & V3 & _) _]; subst. destruct (keep_ok _ _ _ _ (fr_bufs _ _ _ _ F1) (proj1 V1) V1) as (_ & K2 & _).
    rewrite K2. eapply ST; [exact TV|]. apply (fr_grow _ _ _ _ F1); auto. }
  pose proof H2 as H3. change (v :: rr) with ([v] ++ rr) in H3. apply extend_app in H3 as (e3 & g3 & e4 & H3 & H4 & ->).
  inversion FV1 as [|? ? V FR]; subst.
  destruct (EX [v] g1 e3 g3 I1 ltac:(lia) ltac:(lia) ltac:(constructor; auto) H3) as (F3 & _ & _ & _ & G3).
  pose proof (fr_inv _ _ _ _ F3) as I3. pose proof (fr_maps _ _ _ _ F3) as M3. pose proof (proj1 (fr_bufs _ _ _ _ F3)) as B3.
  assert (FR3 : Forall (Vg b0 ci L0 cb (refsF m ++ refsMs ms) ms g3) rr).
  { eapply Forall_impl; [|exact FR]. intros a A. eapply Vg_frame; eauto. intros k Ik. apply in_or_app; auto. }
  destruct (EX rr g3 e4 g' I3 ltac:(lia) ltac:(lia) FR3 H4) as (F4 & _).
  (* the vector of [v] *)
  assert (exists w, In w e3 /\ T' (mapOf g3 (vcons w)) (readS g3 (vdata w))) as (w & Iw & TW).
  { cbn [extend] in H3. destruct (mem m (setCur (vcons v) g1)) as [[mvs g5]| | |] eqn:EM; try discriminate. cbn [bind] in H3.
    destruct (prepend grow v mvs g5) as [e5 g6] eqn:EP. inversion H3; subst e3 g3; clear H3. rewrite app_nil_r in *.
    pose proof V as (V1 & V2 & V3 & V4 & V5 & V6 & V7).
    assert (LOC : forall k x, cLookup (mapOf g1 (vcons v)) "" k = Some x -> In k R /\ (isUnion m -> ~ In k (fieldNames m))).
    { intros k x E. destruct (V6 _ _ E) as [E'|E']; [eauto|]. split.
      - apply RR. unfold refsMs. cbn [flat_map]. apply in_app_iff in E' as [E'|E']; apply in_or_app; auto. left. destruct m; auto; destruct E'.
      - intros U. destruct m; try contradiction. cbn [refsF app] in E'. apply UN; auto. }
    destruct (SP (setCur (vcons v) g1) mvs g5) as (F5 & _ & S5 & _ & G5); auto. { now apply inv_setCur. }
    cbn [setCur cur] in F5, G5. apply frame_setCur in F5.
    destruct (keep_ok _ _ _ _ (fr_bufs _ _ _ _ F5) (proj1 V1) V1) as (K1 & K2 & _).
    destruct (prepend_spec grow v mvs g5 e5 g6 (nbufs g1) [] EP K1 (proj1 V1)) as ((M6 & _) & _ & F6 & _).
    { eapply Forall_impl; [|exact G5]. intros a ((A1 & A2 & _) & _). auto. }
    { constructor. }
    { now rewrite app_nil_r. }
    destruct (LV (setCur (vcons v) g1) mvs g5) as (mv & Imv & PM); auto.
    { now apply inv_setCur. }
    { intros k x K. now apply (LOC k x). }
    assert (exists w, In w e5 /\ vcons w = vcons mv /\ readS g6 (vdata w) = readS g5 (vdata mv) ++ readS g5 (vdata v)) as (w & Iw & CW & RW).
    { clear - F6 Imv. induction F6 as [|a d l1 l2 (_ & _ & X3 & X4) _ IH]; [destruct Imv|]. destruct Imv as [->|J].
      - exists d. split; [now left|auto].
      - destruct (IH J) as (w & A & B). exists w. split; [now right|auto]. }
    exists w. split; auto. rewrite CW, RW, K2, (mapOf_maps g5 g6 _ M6). rewrite Forall_forall in G5. destruct (G5 _ Imv) as (_ & GM).
    eapply STEP; eauto. }
  exists w. split; [apply in_or_app; right; apply in_or_app; now left|].
  rewrite Forall_forall in G3. destruct (G3 _ Iw) as ((W1 & _ & W3 & _) & _).
  destruct (keep_ok _ _ _ _ (fr_bufs _ _ _ _ F4) (proj1 W1) W1) as (_ & Kw & _). rewrite Kw.
  eapply ST'; [exact TW|]. apply (fr_grow _ _ _ _ F4); auto.
Qed.

(** Vectors for a list of members, with [T ms] for each of its tails [ms]. *)
Section Loop.
Variable mem : member -> gst -> outcome (list vec * gst).
Variable T : list member -> cons -> bytes -> Prop.
(** What the selector keeps. *)
Hypothesis KeepT : forall ms g k vs, holds (T ms) g vs -> holds (T ms) g (sel k vs).
Fixpoint steps (ms : list member) : Prop :=
  match ms with
  | [] => True
  | m :: ms' =>
      (exists P : cons -> Prop, stable (fun k => In k (refsF m)) (T ms') /\ stable (fun k => In k (refsF m)) (T ms) /\
         (forall c0 c2 dm dv, goodM m c0 c2 dm -> goodV ms' cb c0 dv -> locs m ms' c0 -> T ms' c0 dv -> P c2 -> T ms c2 (dm ++ dv)) /\
         live m ms' (mem m) P) /\ steps ms'
  end.

Lemma loop_keep : forall ms, chain cb mem ms -> steps ms -> T [] cb [] -> forall ev g vs g', inv g -> L0 = nmaps g -> ci < nmaps g ->
  okS g (vdata ev) -> b0 <= sbuf (vdata ev) -> vcons ev = ci -> readS g (vdata ev) = [] -> mapOf g ci = cb ->
  membersLoop grow sel mem ms [ev] g = Ok (vs, g') -> holds (T ms) g' vs.
Proof.
  induction ms as [|m ms IH]; intros CH SS T0 ev g vs g' I EL LC OE BE EV RE EC H; cbn [membersLoop] in H.
  - inversion H; subst vs g'. exists ev. split; [now left|]. now rewrite EV, EC, RE.
  - destruct CH as (ST & CH). destruct SS as ((P & S1 & S2 & S3 & LV) & SS).
    destruct (membersLoop grow sel mem ms [ev] g) as [[vs1 g1]| | |] eqn:E1; try discriminate. cbn [bind] in H.
    destruct (extend grow (mem m) vs1 g1) as [[e g2]| | |] eqn:E2; try discriminate. cbn [bind] in H. unfold select in H. inversion H; subst vs g'; clear H.
    pose proof (IH CH SS T0 ev g vs1 g1 I EL LC OE BE EV RE EC E1) as HT.
    destruct (membersLoop_spec camel r lenient lim gr sg grow ords Hords sel Hsel strct Hsmall b0 ci L0 cb mem ms CH ev g vs1 g1) as (F1 & _ & _ & _ & G1); auto.
    pose proof (fr_maps _ _ _ _ F1) as LM. pose proof (proj1 (fr_bufs _ _ _ _ F1)) as LB.
    apply (KeepT (m :: ms) (tick g2)). 
    refine (extend_keep mem m ms ST _ _ P S1 S2 S3 LV vs1 g1 e g2 _ _ _ _ E2 HT).
    + apply (fr_inv _ _ _ _ F1).
    + lia.
    + destruct OE. lia.
    + eapply Forall_impl; [|exact G1]. intros v (V1 & V2 & V3 & V4 & V5 & V6 & V7). refine (conj V1 (conj V2 (conj V3 (conj V4 (conj V5 (conj _ V7)))))).
      intros k x E. destruct (V6 _ _ E); auto. right. apply in_or_app; auto.
Qed.
End Loop.
End Keep.

Definition some {A} (l : list A) : Prop := l <> [].
Lemma some_app : forall {A} (a b : list A), some a \/ some b -> some (a ++ b).
Proof. intros A [|x a] b [H|H]; auto; try discriminate. now destruct H. Qed.

Section Plain.
Variable grow : nat -> nat -> nat.
Variable ords : nat -> uorders.
Variable sel : nat -> list vec -> list vec.
Hypothesis Hne : forall n vs, some vs -> some (sel n vs).
Variable r : resolver.
Variable pl : string -> bool.
Hypothesis Hpl : forall nm s, StructNonExtern r nm = Ok s -> pl nm = true -> forallb (plainM pl) (members_of s) = true.

Lemma crossOne_some : forall u b g e g', some b -> crossOne grow ords u b g = Ok (e, g') -> some e.
Proof.
  intros u [|w b] g e g' S H; [now destruct S|]. cbn [crossOne] in H. destruct (mergeMaps ords (vcons u) (vcons w) g) as [[m g1]| | |]; try discriminate. cbn [bind] in H.
  destruct (appendS grow (vdata u) (readS g1 (vdata w)) g1) as [d g2]. destruct (crossOne grow ords u b g2) as [[rest g3]| | |]; try discriminate. inversion H; intro; discriminate.
Qed.
Lemma cross_some : forall a b g e g', some a -> some b -> cross grow ords a b g = Ok (e, g') -> some e.
Proof.
  intros [|u a] b g e g' S SB H; [now destruct S|]. cbn [cross] in H. destruct (crossOne grow ords u b g) as [[p g1]| | |] eqn:E; try discriminate. cbn [bind] in H.
  destruct (cross grow ords a b g1) as [[q g2]| | |]; try discriminate. inversion H; subst. apply some_app. left. exact (crossOne_some _ _ _ _ _ SB E).
Qed.
Lemma arrayLoop_some : forall el, (forall g w g', el g = Ok (w, g') -> some w) -> forall n v g v' g', some v -> arrayLoop grow ords sel el n v g = Ok (v', g') -> some v'.
Proof.
  intros el HE. induction n as [|n IH]; intros v g v' g' S H; cbn [arrayLoop] in H; [inversion H; subst; auto|].
  destruct (el g) as [[w g1]| | |] eqn:E1; try discriminate. cbn [bind] in H. destruct (cross grow ords w v g1) as [[e g2]| | |] eqn:E2; try discriminate. cbn [bind] in H.
  unfold select in H. refine (IH _ _ _ _ _ H). apply Hne. refine (cross_some _ _ _ _ _ _ S E2). exact (HE _ _ _ E1).
Qed.
Lemma prepend_some : forall v mvs g e g', some mvs -> prepend grow v mvs g = (e, g') -> some e.
Proof.
  intros v [|m mvs] g e g' S H; [now destruct S|]. cbn [prepend] in H. destruct (appendS grow (vdata m) (readS g (vdata v)) g) as [d g1].
  destruct (prepend grow v mvs g1) as [rest g2]. inversion H; intro; discriminate.
Qed.
Lemma extend_some : forall mem, (forall g w g', mem g = Ok (w, g') -> some w) -> forall vs g e g', some vs -> extend grow mem vs g = Ok (e, g') -> some e.
Proof.
  intros mem HM [|v vs] g e g' S H; [now destruct S|]. cbn [extend] in H. destruct (mem (setCur (vcons v) g)) as [[mvs g1]| | |] eqn:E; try discriminate. cbn [bind] in H.
  destruct (prepend grow v mvs g1) as [e1 g2] eqn:EP. destruct (extend grow mem vs g2) as [[rest g3]| | |]; try discriminate. inversion H; subst.
  apply some_app. left. refine (prepend_some _ _ _ _ _ _ EP). exact (HM _ _ _ E).
Qed.

Section Level.
Variable fuel : nat.
Variable callS : struct -> gst -> outcome (list vec * gst).
Hypothesis Hcall : forall s, forallb (plainM pl) (members_of s) = true -> forall g w g', callS s g = Ok (w, g') -> some w.
Lemma intType_some : forall nm sz cst g w g', intType r fuel nm sz cst g = Ok (w, g') -> some w.
Proof.
  intros nm sz cst g w g' H. unfold intType in H.
  destruct (match cLookup (mapOf g (cur g)) "" nm with Some x => _ | None => _ end) as [[b g1]| | |]; try discriminate. cbn [bind] in H.
  destruct (vectorOf b g1) as [v g2]. inversion H; intro; discriminate.
Qed.
Lemma field_some : forall t nm g w g', plainT pl t = true -> field grow ords sel r fuel callS nm t g = Ok (w, g') -> some w.
Proof.
  induction t as [sz cst| | | |n|b IH i|b IH o]; intros nm g w g' P H; cbn [field] in H.
  - eapply intType_some; eauto.
  - eapply intType_some; eauto.
  - destruct (emptyVec g). inversion H; intro; discriminate.
  - destruct (randnulterm 2 20 g) as [x g1]. destruct (vectorOf x g1). inversion H; intro; discriminate.
  - destruct (StructNonExtern r n) as [s| | |] eqn:E; try discriminate. cbn [bind] in H. eapply Hcall; [|exact H]. eapply Hpl; eauto.
  - destruct (emptyVec g) as [iv g1]. destruct (Integer r i); try discriminate. cbn [bind] in H.
    refine (arrayLoop_some _ _ _ _ _ _ _ _ H); [|intro; discriminate]. intros g2 w2 g3. apply IH. exact P.
  - cbn [plainT] in P. destruct o as [[f|z]|]; destruct (emptyVec g) as [iv g1]; try discriminate; destruct (randbtw 1 20 g1) as [d g2].
    + destruct (lookupOrCreate (vcons iv) f d g2) as [[q g3]| | |]; try discriminate. cbn [bind] in H.
      refine (arrayLoop_some _ _ _ _ _ _ _ _ H); [|intro; discriminate]. intros ? ? ?. apply IH. exact P.
    + refine (arrayLoop_some _ _ _ _ _ _ _ _ H); [|intro; discriminate]. intros ? ? ?. apply IH. exact P.
Qed.
Lemma plain_some : forall strct gen m g w g', plainM pl m = true -> gmember grow ords sel r fuel callS strct gen m g = Ok (w, g') -> some w.
Proof.
  intros strct gen m g w g' P H. destruct m as [nm t|u tag len cs| | |]; try discriminate; cbn [gmember plainM] in *.
  - eapply field_some; eauto.
  - destruct (emptyVec g). inversion H; intro; discriminate.
  - destruct (emptyVec g) as [a g1]. destruct (randbytes 1 7 g1) as [b g2]. destruct (vectorOf b g2). inversion H; intro; discriminate.
Qed.
Lemma plainLoop_some : forall strct gen ms vs g w g', forallb (plainM pl) ms = true -> some vs ->
  membersLoop grow sel (gmember grow ords sel r fuel callS strct gen) ms vs g = Ok (w, g') -> some w.
Proof.
  intros strct gen. induction ms as [|m ms IH]; intros vs g w g' P S H; cbn [membersLoop] in H; [inversion H; subst; auto|].
  cbn [forallb] in P. apply andb_true_iff in P as (P1 & P2).
  destruct (membersLoop _ _ _ ms vs g) as [[vs1 g1]| | |] eqn:E1; try discriminate. cbn [bind] in H.
  destruct (extend _ _ vs1 g1) as [[e g2]| | |] eqn:E2; try discriminate. cbn [bind] in H. unfold select in H. inversion H; subst. apply Hne.
  refine (extend_some _ _ _ _ _ _ _ E2).
  - intros ? ? ?. now apply plain_some.
  - eapply IH; eauto.
Qed.
End Level.

Lemma gmembers_some : forall n s ms vs g w g', forallb (plainM pl) ms = true -> some vs -> gmembers grow ords sel r n s ms vs g = Ok (w, g') -> some w.
Proof.
  induction n as [|n IH]; intros s ms vs g w g' P S H; cbn [gmembers] in H; [discriminate|].
  eapply plainLoop_some; [|exact P|exact S|exact H]. intros s' P' g1 w1 g2 H1. unfold structureWith in H1.
  destruct (cloneGlobalMap ords (cur g1) g1) as [[c g3]| | |]; try discriminate. cbn [bind] in H1. destruct (newSlice [] g3) as [d g4].
  destruct (gmembers grow ords sel r n s' (members_of s') [mkVec d c] g4) as [[vs' g5]| | |] eqn:E; try discriminate. cbn [bind] in H1. inversion H1; subst.
  refine (IH _ _ _ _ _ _ P' _ E). intro; discriminate.
Qed.
End Plain.

(** Every case has its branch. *)
Lemma branchLoop_all : forall r cs d k bs d' k', branchLoop r cs d k = Ok (bs, d', k') ->
  (forall c, In c cs -> ucase_list c <> None -> exists b, In b bs /\ bcase b = c) /\
  ((exists c, In c cs /\ ucase_list c = None) -> exists c, k' = Some c /\ In c cs /\ ucase_list c = None) /\
  ((forall c, In c cs -> ucase_list c <> None) -> k' = k).
Proof.
  intros r. induction cs as [|c cs IH]; intros d k bs d' k' H; cbn [branchLoop] in H.
  - inversion H; subst. split; [intros c []|]. split; [intros (c & [] & _)|auto].
  - destruct (ucase_list c) as [l|] eqn:L.
    + destruct (Intervals r l) as [s| | |]; try discriminate. cbn [bind] in H. destruct (Subtract d s) as [d1| | |]; try discriminate. cbn [bind] in H.
      destruct (branchLoop r cs d1 k) as [[[bs1 d2] k2]| | |] eqn:E; try discriminate. cbn [bind] in H. inversion H; subst.
      destruct (IH _ _ _ _ _ E) as (A & B & C). split; [|split].
      * intros c0 [<-|I] N; [eexists; split; [now left|auto]|]. destruct (A c0 I N) as (b & Ib & Eb). exists b. split; [now right|auto].
      * intros (c0 & [<-|I] & N); [congruence|]. destruct B as (c1 & B1 & B2 & B3); eauto. exists c1. split; auto. split; [now right|auto].
      * intros N. apply C. intros c0 I. apply N. now right.
    + destruct (IH _ _ _ _ _ H) as (A & B & C). split; [|split].
      * intros c0 [<-|I] N; [congruence|]. auto.
      * intros _. destruct (existsb (fun c => match ucase_list c with None => true | _ => false end) cs) eqn:EX.
        -- apply existsb_exists in EX as (c0 & I0 & N0). destruct B as (c1 & B1 & B2 & B3); [exists c0; destruct (ucase_list c0); [discriminate|auto]|].
           exists c1. split; auto. split; [now right|auto].
        -- exists c. split; [|split; [now left|auto]]. apply C. intros c0 I0 N0. assert (X : true = false); [|discriminate]. rewrite <- EX. symmetry.
           apply existsb_exists. exists c0. now rewrite N0.
      * intros N. exfalso. apply (N c); [now left|auto].
Qed.
Lemma branches_all : forall r s tag cs bs c, NewBranches r s tag cs = Ok bs -> oneDefaultb cs = true -> In c cs -> exists b, In b bs /\ bcase b = c.
Proof.
  intros r s tag cs bs c H OD I. unfold NewBranches in H. destruct (IntType r tag s) as [[sz cst]| | |]; try discriminate. cbn [bind] in H.
  destruct (IntTypeSet sz) as [d0| | |]; try discriminate. cbn [bind] in H. destruct (branchLoop r cs d0 None) as [[[bs0 d] k]| | |] eqn:E; try discriminate. cbn [bind] in H.
  destruct (branchLoop_all _ _ _ _ _ _ _ E) as (A & B & _). destruct (ucase_list c) as [l|] eqn:L.
  - destruct (A c I) as (b & Ib & Eb); [congruence|]. exists b. split; auto. destruct k; inversion H; subst; auto. apply in_or_app; auto.
  - destruct B as (c1 & -> & I1 & L1); eauto. inversion H; subst. exists (mkBranch d c1). split; [apply in_or_app; right; now left|]. cbn [bcase].
    unfold oneDefaultb in OD. apply Nat.leb_le in OD. set (p := fun c => match ucase_list c with None => true | Some _ => false end) in OD.
    assert (F1 : In c1 (filter p cs)) by (apply filter_In; unfold p; now rewrite L1).
    assert (F2 : In c (filter p cs)) by (apply filter_In; unfold p; now rewrite L).
    destruct (filter p cs) as [|a [|b l]]; [destruct F1| |cbn in OD; lia]. destruct F1 as [<-|[]], F2 as [<-|[]]. auto.
Qed.

(** * Unions *)
Lemma unionLoop_app : forall ords fuel gen tag base a b g e g', unionLoop ords fuel gen tag base (a ++ b) g = Ok (e, g') ->
  exists e1 g1 e2, unionLoop ords fuel gen tag base a g = Ok (e1, g1) /\ unionLoop ords fuel gen tag base b g1 = Ok (e2, g') /\ e = e1 ++ e2.
Proof.
  intros ords fuel gen tag base. induction a as [|x a IH]; intros b g e g' H.
  - exists [], g, e. auto.
  - cbn [app unionLoop] in *. destruct (cloneMap ords base g) as [[c g1]| | |]; try discriminate. cbn [bind] in *.
    destruct (randomIn fuel (bset x) (setCur c g1)) as [[y g3]| | |]; try discriminate. cbn [bind] in *.
    destruct (lookupOrCreate (cur g3) tag (s64 y) g3) as [[z g4]| | |]; try discriminate. cbn [bind] in *.
    destruct (emptyVec g4) as [ev g5]. destruct (gen (bcase x) [ev] g5) as [[vs g6]| | |]; try discriminate. cbn [bind] in *.
    destruct (unionLoop ords fuel gen tag base (a ++ b) g6) as [[rest g7]| | |] eqn:E; try discriminate. cbn [bind] in H. inversion H; subst.
    destruct (IH _ _ _ _ E) as (e2 & g8 & e3 & A & B & ->). rewrite A. cbn [bind]. exists (vs ++ e2), g8, e3. split; auto. split; auto. now rewrite app_assoc.
Qed.
Lemma unionLoop_some : forall ords fuel gen tag base b g e g', (forall ev g1 vs g2, gen (bcase b) [ev] g1 = Ok (vs, g2) -> some vs) ->
  unionLoop ords fuel gen tag base [b] g = Ok (e, g') -> some e.
Proof.
  intros ords fuel gen tag base b g e g' HG H. cbn [unionLoop] in H. destruct (cloneMap ords base g) as [[c g1]| | |]; try discriminate. cbn [bind] in *.
  destruct (randomIn fuel (bset b) (setCur c g1)) as [[y g3]| | |]; try discriminate. cbn [bind] in *.
  destruct (lookupOrCreate (cur g3) tag (s64 y) g3) as [[z g4]| | |]; try discriminate. cbn [bind] in *.
  destruct (emptyVec g4) as [ev g5]. destruct (gen (bcase b) [ev] g5) as [[vs g6]| | |] eqn:E; try discriminate. cbn [bind] in H. inversion H; subst.
  apply some_app. left. exact (HG _ _ _ _ E).
Qed.
Lemma forall2_filter : forall {A B} (p : A -> bool) (Q : A -> B -> Prop) l l' x, Forall2 Q (filter p l) l' -> In x l -> p x = true -> exists y, In y l' /\ Q x y.
Proof.
  intros A B p Q l l' x F I P. assert (J : In x (filter p l)) by now apply filter_In. revert J. induction F as [|a b la lb H _ IH]; intros J; [destruct J|].
  destruct J as [->|J]; [exists b; split; [now left|auto]|]. destruct (IH J) as (y & A1 & A2). exists y. split; [now right|auto].
Qed.

Section UnionLive.
Variable camel : string -> string.
Variable r : resolver.
Variable lenient : Prop.
Variable lim : Z.
Variable gr sg : string -> bool.
Variable grow : nat -> nat -> nat.
Variable ords : nat -> uorders.
Hypothesis Hords : forall n, goodOrders (ords n).
Variable sel : nat -> list vec -> list vec.
Hypothesis Hsel : forall n vs, exists rest, Permutation (sel n vs ++ rest) vs.
Notation cv := (Constant r).
Variable fuel : nat.
Variable callS : struct -> gst -> outcome (list vec * gst).
Variable strct : struct.
Notation R := (refsMs (members_of strct)).
Variable u : string.
Variable tag : idref.
Variable len : option lconstraint.
Variable cs : list ucase.
Notation M := (MUnion u tag len cs).
Hypothesis Hok : unionOK camel r gr sg strct tag len cs (fieldNames M) = true.
Hypothesis Hlist : exists ok, listOK camel gr ok (members_of strct) = true.
Hypothesis Hrefs : forall k, In k (refsM M) -> In k R.
Variable sz : Z.
Variable cst : option intlist.
Hypothesis Hint : IntType r tag strct = Ok (sz, cst).
Variable gen : ucase -> list vec -> gst -> outcome (list vec * gst).
Hypothesis Hgen : forall c, In c cs -> forall cb g ev vs g' ci, inv g -> (forall k x, cLookup cb "" k = Some x -> In k R) ->
  ci < nmaps g -> okS g (vdata ev) -> vcons ev = ci -> readS g (vdata ev) = [] -> mapOf g ci = cb ->
  gen c [ev] g = Ok (vs, g') ->
  frame (eq ci) (fun k => In k (refsMs (ucase_members c))) g g' /\
  (cur g' = cur g \/ cur g' = ci \/ nmaps g <= cur g') /\ safe g' (map vdata vs) /\
  Forall (Vg camel r lenient lim gr strct (sbuf (vdata ev)) ci (nmaps g) cb (refsMs (ucase_members c)) (ucase_members c) g') vs.
Hypothesis Hfail : forall c ev g vs g', existsb isFail (ucase_members c) = true -> gen c [ev] g = Ok (vs, g') -> vs = [].
Variable pl : string -> bool.
Hypothesis Hsome : forall c ev g vs g', forallb (plainM pl) (ucase_members c) = true -> gen c [ev] g = Ok (vs, g') -> some vs.

(** The tag in the constraints is one for the case [c]. *)
Definition tagFor (c : ucase) (k : cons) : Prop :=
  exists x, (0 <= x < 2 ^ sz)%Z /\ cLookup k "" (rname tag) = Some x /\ takes cv cs x c.

Lemma union_live : forall later c, oneDefaultb cs = true -> In c cs -> liveCase pl later tag len c = true ->
  forall g mvs g', inv g -> (forall k x, cLookup (mapOf g (cur g)) "" k = Some x -> In k R /\ In k later) ->
  gmember grow ords sel r fuel callS strct gen M g = Ok (mvs, g') -> exists mv, In mv mvs /\ tagFor c (mapOf g' (vcons mv)).
Proof.
  intros later c OD Ic LV g mvs g' I LOC E. unfold liveCase in LV. apply andb_true_iff in LV as (LV & LL). apply andb_true_iff in LV as (LT & LP).
  unfold unused in LT. apply andb_true_iff in LT as (TS & TL). apply String.eqb_eq in TS. apply negb_true_iff in TL.
  destruct (union_parts camel r gr sg grow ords Hords sel Hsel fuel callS strct u tag len cs Hok Hrefs sz cst Hint) as (RT & RL & SZ & LF & (iv & EI) & NE & DN & P).
  cbn [gmember] in E. destruct (NewBranches r strct tag cs) as [bs| | |] eqn:EB; try discriminate. cbn [bind] in E.
  pose proof (branches_in r strct tag cs sz cst bs iv Hint SZ LF NE EI EB) as BI.
  set (c0 := mapOf g (cur g)) in *.
  assert (NT : cLookupRef c0 tag = None).
  { unfold cLookupRef. rewrite TS. destruct (cLookup c0 "" (rname tag)) as [x|] eqn:K; auto. destruct (LOC _ _ K) as (_ & J). apply memb_In in J. congruence. }
  rewrite NT in E. cbn [unionOptions] in E.
  destruct (branches_all r strct tag cs bs c EB OD Ic) as (b & Ib & <-).
  destruct (cloneMap_spec ords Hords (cur g) g (proj1 I)) as (j & g1 & c1 & E1 & -> & AM & M1 & W1 & L1). rewrite E1 in E. cbn [bind] in E.
  assert (NN1 : nonneg c1) by (intros s k x K; rewrite L1 in K; eapply (proj2 (proj2 I)); eauto).
  destruct (adds_frame nobody nothing g g1 [c1] I AM W1) as (F1 & C1 & B1); [intros c' [<-|[]]; auto|].
  assert (LM1 : nmaps g1 = S (nmaps g)) by (destruct AM as (AM & _); rewrite AM, app_length; cbn; lia).
  destruct (unionLoop ords fuel gen tag (nmaps g) bs g1) as [[results g2]| | |] eqn:EU; try discriminate. cbn [bind] in E.
  assert (OPT : Forall (optOK r tag cs sz c0) bs).
  { apply Forall_forall. intros b' Ib'. destruct (BI _ Ib') as (A & B & C). split; auto. split; auto. split; auto. intros y Y. congruence. }
  assert (LOCR : forall k x, cLookup c0 "" k = Some x -> In k R) by (intros k x K; apply (LOC k x K)).
  pose proof (unionLoop_spec camel r lenient lim gr sg grow ords Hords sel Hsel fuel callS strct u tag len cs Hok Hlist Hrefs sz cst Hint gen Hgen Hfail) as US.
  assert (BASE : forall s k, cLookup (mapOf g1 (nmaps g)) s k = cLookup c0 s k) by (intros s k; rewrite M1; apply L1).
  destruct (US bs g1 (nmaps g) c0 results g2 (fr_inv _ _ _ _ F1) ltac:(lia) BASE LOCR OPT EU) as (F2 & _ & _ & G2).
  (* the vector of the branch *)
  assert (exists v, In v results /\ tagFor (bcase b) (mapOf g2 (vcons v)) /\
    forall k y, cLookup (mapOf g2 (vcons v)) "" k = Some y -> cLookup c0 "" k = Some y \/ k = rname tag \/ In k (refsMs (ucase_members (bcase b)))) as (v & Iv & TV & LV).
  { apply in_split in Ib as (l & rr & ->). apply unionLoop_app in EU as (e1 & g3 & e2 & U1 & U2 & ->).
    apply Forall_app in OPT as (O1 & O2). destruct (US l g1 (nmaps g) c0 e1 g3 (fr_inv _ _ _ _ F1) ltac:(lia) BASE LOCR O1 U1) as (F3 & _).
    pose proof (fr_maps _ _ _ _ F3) as M3.
    assert (BASE3 : forall s k, cLookup (mapOf g3 (nmaps g)) s k = cLookup c0 s k) by (intros s k; rewrite (frame_map _ _ _ _ F3) by lia; auto).
    change (b :: rr) with ([b] ++ rr) in U2. apply unionLoop_app in U2 as (e3 & g4 & e4 & U3 & U4 & ->). inversion O2 as [|? ? Ob Or]; subst.
    destruct (US [b] g3 (nmaps g) c0 e3 g4 (fr_inv _ _ _ _ F3) ltac:(lia) BASE3 LOCR ltac:(constructor; auto) U3) as (F4 & _ & _ & G4).
    pose proof (fr_maps _ _ _ _ F4) as M4.
    assert (BASE4 : forall s k, cLookup (mapOf g4 (nmaps g)) s k = cLookup c0 s k) by (intros s k; rewrite (frame_map _ _ _ _ F4) by lia; auto).
    destruct (US rr g4 (nmaps g) c0 e4 g2 (fr_inv _ _ _ _ F4) ltac:(lia) BASE4 LOCR Or U4) as (F5 & _).
    pose proof (unionLoop_some _ _ _ _ _ _ _ _ _ (fun ev g1 vs g2 => Hsome (bcase b) ev g1 vs g2 LP) U3) as NZ.
    destruct e3 as [|v e3]; [now destruct NZ|]. inversion G4 as [|? ? (V1 & V2 & V3 & V4) _]; subst.
    exists v. split; [apply in_or_app; right; now left|]. rewrite (frame_map _ _ _ _ F5) by lia.
    destruct V4 as (c' & x & cb & [<-|[]] & X2 & X3 & X4 & X5 & X6 & _). unfold cLookupRef in X3, X4, NT. rewrite TS in X3, X4, NT.
    destruct X4 as [X4|X4]; [congruence|]. split.
    - exists x. split; auto. split; auto. unfold u64 in X2. rewrite Z.mod_small in X2; auto.
      assert (2 ^ sz <= 2 ^ 32)%Z by (apply Z.pow_le_mono_r; lia). unfold two64. change (2 ^ 32)%Z with 4294967296%Z in *. lia.
    - intros k y K. destruct (X6 _ _ K) as [K'|[K'|K']]; auto. cbn [refsL] in K'. rewrite app_nil_r in K'. apply localRef_In in K' as (_ & ->). auto. }
  rewrite Forall_forall in G2. pose proof (fr_inv _ _ _ _ F2) as I2.
  assert (CL : (exists f, len = Some (LRef f)) \/ (exists i, len = Some (LLeftover i)) \/ len = None) by (destruct len as [[f|i]|]; eauto).
  destruct CL as [(f & EL)|[(i & EL)|EL]]; rewrite EL in E, LL.
  - unfold unused in LL. apply andb_true_iff in LL as (FS & FL). apply String.eqb_eq in FS. apply negb_true_iff in FL.
    assert (NF : ~ In (rname f) (later ++ rname tag :: refsMs (ucase_members (bcase b)))) by (intros J; apply memb_In in J; congruence).
    assert (FV : Forall (fun v => vcons v < nmaps g2) results) by (apply Forall_forall; intros w Iw; destruct (G2 _ Iw) as (_ & _ & V & _); lia).
    destruct (lenconstrain_spec ords Hords f results g2 (proj1 I2) FV) as (res & g3 & E3 & _ & _ & _ & _ & _ & F3). rewrite E3 in E. inversion E; subst res g3; clear E.
    assert (FIT : lenFits g2 f v = true).
    { unfold lenFits, cLookupRef. rewrite FS. destruct (cLookup (mapOf g2 (vcons v)) "" (rname f)) as [y|] eqn:K; auto. exfalso. apply NF.
      destruct (LV _ _ K) as [K'|[K'|K']]; apply in_or_app; [left; apply (LOC _ _ K')|right; now left|right; now right]. }
    destruct (forall2_filter _ _ _ _ _ F3 Iv FIT) as (w & Iw & _ & _ & _ & OT). exists w. split; auto.
    destruct TV as (x & X1 & X2 & X3). exists x. split; auto. split; auto. rewrite OT; auto. intros Q. inversion Q as [[Q1 Q2]]. apply NF. rewrite <- Q2. apply in_or_app. right. now left.
  - discriminate.
  - inversion E; subst. exists v. split; auto.
Qed.
End UnionLive.

(** * The value of a tag *)
Section Track.
Variable camel : string -> string.
Variable r : resolver.
Variable lenient : Prop.
Variable lim : Z.
Variable gr : string -> bool.
Variable strct : struct.
Notation ctxs := (scontexts strct).
Notation EncMs := (encMs camel (Constant r) (Struct r) lenient).
Notation goodV := (goodV camel r lenient lim gr strct).
Notation goodM := (goodM camel r lenient lim gr strct).
Variable k0 : string.
Variable x : Z.

(** The vector [d] for [ms] with constraints [c] gives the field [k0] the value
    [x], or will do so when the field is generated. *)
Definition tracks (ms : list member) (c : cons) (d : bytes) : Prop :=
  (In k0 (namesMs ms) -> (blen d < lim)%Z -> forall cenv fs pos tail, world camel strct cenv fs -> agreeG camel ctxs cenv c ->
     agreeL camel fs c (fun k => In k (refsMs ms) /\ ~ In k (namesMs ms)) -> (greedyMs gr ms = true -> tail = []) ->
     exists fs', EncMs cenv pos ms fs d tail fs' /\ alookup (camel k0) fs' = Some (VInt x)) /\
  (~ In k0 (namesMs ms) -> cLookup c "" k0 = Some x).

Lemma tracks_grown : forall P ms, stable P (tracks ms).
Proof.
  intros P ms c c' d (A & B) (EX & _). split; [|intros N; apply EX; auto].
  intros I L cenv fs pos tail W AG AL GT. apply A; auto.
  - eapply agreeG_ext; [apply extendsG_of; exact EX|exact AG].
  - intros k y K Q. apply AL; auto.
Qed.

Lemma tracks_cons : forall m ms cb c0 c2 dm dv,
  goodM m c0 c2 dm -> goodV ms cb c0 dv -> noLocals cb -> tracks ms c0 dv ->
  disjC camel (fieldNames m) (namesMs ms) = true -> disjC camel (refsM m) (namesMs ms) = true ->
  forallb (fun k => memb k (fieldNames m) || disjC camel [k] (fieldNames m)) (refsMs ms) = true ->
  (greedyM gr m = true -> ms = []) ->
  (dropM m = true -> forall k y, cLookup c0 "" k = Some y -> In k (namesMs ms)) ->
  tracks (m :: ms) c2 (dm ++ dv).
Proof.
  intros m ms cb c0 c2 dm dv (EX & KE & GM) GV NL (TI & TO) D1 D2 D3 GR DR. split.
  2:{ intros N. assert (N' : ~ In k0 (namesMs ms)) by (intros J; apply N; unfold namesMs; cbn [flat_map]; apply in_or_app; auto).
      specialize (TO N'). destruct (dropM m); [|now apply EX]. exfalso. apply N'. eapply DR; eauto. }
  intros IN L. rewrite blen_app in L. pose proof (blen_nonneg dm). pose proof (blen_nonneg dv).
  destruct GM as (W2 & E2); [lia|]. destruct GV as (W1 & E1); [lia|].
  assert (EG : extendsG c0 c2) by (destruct (dropM m); [tauto|now apply extendsG_of]).
  rewrite disjC_spec in D1, D2. rewrite forallb_forall in D3.
  intros cenv fs pos tail WO AG AL GT.
  assert (W0 : forall k y, cLookup c0 "" k = Some y -> widthOK r strct k y) by (intros k y K; destruct (W1 _ _ K) as [F|]; auto; rewrite NL in F; discriminate).
  assert (W : forall k y, cLookup c2 "" k = Some y -> widthOK r strct k y) by (intros k y K; destruct (W2 _ _ K) as [F|]; auto).
  specialize (E1 W0). specialize (E2 W).
  destruct (E2 cenv fs pos (dv ++ tail) WO AG) as (fs1 & EM & AM).
  { intros k y K (I1 & I2). apply AL; auto. unfold refsMs, namesMs. cbn [flat_map]. rewrite !in_app_iff. split; auto. intros [J|J]; auto.
    now apply (D2 k k). }
  { intros G. specialize (GR G). subst ms. assert (tail = []) by (apply GT; unfold greedyMs; cbn [existsb]; now rewrite G). subst tail.
    destruct (E1 cenv fs pos []) as (q & EQ & _); auto.
    - eapply agreeG_ext; eauto.
    - intros k y _ ([] & _).
    - inversion EQ; subst. reflexivity. }
  assert (FR : forall k, (forall nm, In nm (fieldNames m) -> camel nm <> camel k) -> alookup (camel k) fs1 = alookup (camel k) fs).
  { intros k N. eapply encM_frame; eauto. intros (nm & I & E). now apply (N nm). }
  assert (WO1 : world camel strct cenv fs1) by (eapply world_dom; [eapply encM_dom; eauto|auto]).
  assert (AG1 : agreeG camel ctxs cenv c0) by (eapply agreeG_ext; eauto).
  assert (AL1 : agreeL camel fs1 c0 (fun k => In k (refsMs ms) /\ ~ In k (namesMs ms))).
  { intros k y K (I1 & I2). destruct (dropM m) eqn:DM.
    - exfalso. apply I2. eapply DR; eauto.
    - destruct (in_dec string_dec k (fieldNames m)) as [J|J]; [apply AM; auto|].
      specialize (D3 _ I1). apply orb_true_iff in D3 as [D3|D3]; [apply memb_In in D3; contradiction|].
      rewrite disjC_spec in D3. rewrite FR by (intros nm Inm E; apply (D3 k nm); auto; now left).
      apply AL; auto. unfold refsMs, namesMs. cbn [flat_map]. rewrite !in_app_iff. split; [now right|]. intros [J'|J']; auto. }
  assert (GT1 : greedyMs gr ms = true -> tail = []) by (intros G; apply GT; unfold greedyMs; cbn [existsb]; apply orb_true_iff; now right).
  destruct (in_dec string_dec k0 (namesMs ms)) as [J|J].
  - destruct (TI J ltac:(lia) cenv fs1 (pos + blen dm)%Z tail WO1 AG1 AL1 GT1) as (fs2 & ES & V). exists fs2. split; auto. econstructor; eauto.
  - destruct (E1 cenv fs1 (pos + blen dm)%Z tail WO1 AG1 AL1 GT1) as (fs2 & ES & _). exists fs2. split; [econstructor; eauto|].
    specialize (TO J). unfold namesMs in IN. cbn [flat_map] in IN. apply in_app_iff in IN as [IN|IN]; [|contradiction].
    assert (K2 : cLookup c2 "" k0 = Some x) by (destruct (dropM m); [exfalso; apply J; eapply DR; eauto|now apply EX]).
    rewrite <- (AM _ _ K2 IN). eapply encMs_frame; eauto. intros nm Inm E. now apply (D1 k0 nm).
Qed.
End Track.

(** * Structs *)
Section Cover.
Variable camel : string -> string.
Variable r : resolver.
Variable lenient : Prop.
Variable lim : Z.
Variable gr sg : string -> bool.
Variable grow : nat -> nat -> nat.
Variable ords : nat -> uorders.
Hypothesis Hords : forall n, goodOrders (ords n).
Variable sel : nat -> list vec -> list vec.
Hypothesis Hsel : forall n vs, exists rest, Permutation (sel n vs ++ rest) vs.
Hypothesis Hne : forall n vs, some vs -> some (sel n vs).
Notation cv := (Constant r).
Notation sv := (Struct r).
Notation EncMs := (encMs camel cv sv lenient).
Notation okStruct := (okStruct camel r lim gr sg).
Notation structSpec := (structSpec camel r lenient lim gr sg).
Notation genSpec := (genSpec camel r lenient lim gr sg).
Hypothesis Hcls : forall nm s, StructNonExtern r nm = Ok s -> sname s = nm /\ okStruct s = true.
Variable pl al : string -> bool.
Hypothesis Hpl : forall nm s, StructNonExtern r nm = Ok s -> pl nm = true -> forallb (plainM pl) (members_of s) = true.
Hypothesis Hal : forall nm s, StructNonExtern r nm = Ok s -> al nm = true -> liveMs pl al (members_of s) = true.

Definition liveSpec (s : struct) (call : gst -> outcome (list vec * gst)) : Prop :=
  liveMs pl al (members_of s) = true -> forall g w g', inv g -> call g = Ok (w, g') -> some w.
Definition plainCall (callS : struct -> gst -> outcome (list vec * gst)) : Prop :=
  forall s, forallb (plainM pl) (members_of s) = true -> forall g w g', callS s g = Ok (w, g') -> some w.
Definition plainGen (gen : ucase -> list vec -> gst -> outcome (list vec * gst)) : Prop :=
  forall c ev g vs g', forallb (plainM pl) (ucase_members c) = true -> gen c [ev] g = Ok (vs, g') -> some vs.

Section Level.
Variable fuel : nat.
Variable callS : struct -> gst -> outcome (list vec * gst).
Hypothesis Hcall : forall s, okStruct s = true -> structSpec s (callS s).
Hypothesis Hlive : forall s, okStruct s = true -> liveSpec s (callS s).
Hypothesis Hplain : plainCall callS.
Variable strct : struct.
Hypothesis Hs : okStruct strct = true.
Notation R := (refsMs (members_of strct)).
Variable gen : ucase -> list vec -> gst -> outcome (list vec * gst).
Hypothesis Hgen : genSpec strct gen.
Hypothesis Hsome : plainGen gen.
Variable cb : cons.
Hypothesis NL : noLocals cb.
Notation mem := (gmember grow ords sel r fuel callS strct gen).
Notation live := (live strct cb).
Notation chain := (chain camel r lenient lim gr sg strct).

Lemma lists_ok : exists ok, listOK camel gr ok (members_of strct) = true.
Proof. exists (memOK camel r gr sg strct). now apply (struct_parts camel r lim gr sg strct Hs). Qed.
(** The union of the struct, with what union_live needs. *)
Lemma union_facts : forall pre u tag len cs post, members_of strct = pre ++ MUnion u tag len cs :: post ->
  unionOK camel r gr sg strct tag len cs (fieldNames (MUnion u tag len cs)) = true /\
  (forall k, In k (refsM (MUnion u tag len cs)) -> In k R) /\
  (exists sz cst, IntType r tag strct = Ok (sz, cst)) /\
  (forall c, In c cs -> forall cb g ev vs g' ci, inv g -> (forall k x, cLookup cb "" k = Some x -> In k R) ->
     ci < nmaps g -> okS g (vdata ev) -> vcons ev = ci -> readS g (vdata ev) = [] -> mapOf g ci = cb ->
     gen c [ev] g = Ok (vs, g') ->
     frame (eq ci) (fun k => In k (refsMs (ucase_members c))) g g' /\
     (cur g' = cur g \/ cur g' = ci \/ nmaps g <= cur g') /\ safe g' (map vdata vs) /\
     Forall (Vg camel r lenient lim gr strct (sbuf (vdata ev)) ci (nmaps g) cb (refsMs (ucase_members c)) (ucase_members c) g') vs).
Proof.
  intros pre u tag len cs post E. destruct (struct_parts camel r lim gr sg strct Hs) as (_ & LO & _).
  assert (IM : In (MUnion u tag len cs) (members_of strct)) by (rewrite E; apply in_or_app; right; now left).
  pose proof (listOK_mem camel gr _ _ _ LO IM) as MO. cbn [memOK] in MO. pose proof MO as MO'. unfold unionOK in MO'. repeat rewrite andb_true_iff in MO'.
  destruct MO' as ((((( _ & IT) & _) & _) & _) & FC). destruct (IntType r tag strct) as [[sz cst]| | |] eqn:EI; try discriminate.
  assert (RM : forall k, In k (refsM (MUnion u tag len cs)) -> In k R) by (intros k K; unfold refsMs; apply in_flat_map; eauto).
  split; auto. split; auto. split; [eauto|]. intros c Ic. rewrite forallb_forall in FC. specialize (FC c Ic). apply andb_true_iff in FC as (FC & _). apply (proj2 Hgen); auto.
  - intros k K. apply RM. exact (case_refs camel r gr sg grow ords Hords sel Hsel fuel callS strct u tag len cs MO RM sz cst EI c k Ic K).
  - intros nt K. apply in_flat_map. exists (MUnion u tag len cs). split; auto. cbn [allFields]. apply in_flat_map. exists c. split; auto. destruct c; exact K.
Qed.

Lemma member_live : forall pre m post, members_of strct = pre ++ m :: post -> liveM pl al (refsMs post) m = true -> live m post (mem m) (fun _ => True).
Proof.
  intros pre m post E LM g mvs g' I LOC LC H.
  assert (SM : some mvs -> exists mv, In mv mvs /\ True) by (intros S; destruct mvs as [|v l]; [now destruct S|]; exists v; split; [now left|auto]).
  destruct m as [nm t|u tag len cs| | |]; try discriminate.
  - assert (CT : (exists n, t = TStruct n) \/ plainT pl t = true) by (destruct t; eauto). destruct CT as [(n & ->)|PT].
    + cbn [liveM] in LM. cbn [gmember field] in H. destruct (StructNonExtern r n) as [s| | |] eqn:ES; try discriminate. cbn [bind] in H.
      destruct (Hcls n s ES) as (_ & OK). apply SM. eapply Hlive; eauto.
    + apply SM. eapply (plain_some grow ords sel Hne r pl Hpl fuel callS Hplain strct gen (MField nm t)); eauto.
  - cbn [liveM] in LM. apply andb_true_iff in LM as (OD & LM). apply existsb_exists in LM as (c & Ic & LM).
    destruct (union_facts _ _ _ _ _ _ E) as (MO & RM & (sz & cst & EI) & HG).
    destruct (union_live camel r lenient lim gr sg grow ords Hords sel Hsel fuel callS strct u tag len cs MO lists_ok RM sz cst EI gen HG (proj1 Hgen) pl Hsome
      (refsMs post) c OD Ic LM g mvs g' I) as (mv & Imv & _); auto; [|eauto].
    intros k x K. split; eauto. destruct (LC _ _ K) as [K'|K']; [rewrite NL in K'; discriminate|exact K'].
  - apply SM. eapply (plain_some grow ords sel Hne r pl Hpl fuel callS Hplain strct gen MEOS); eauto.
  - apply SM. eapply (plain_some grow ords sel Hne r pl Hpl fuel callS Hplain strct gen MIgnore); eauto.
Qed.

(** Predicates that hold anyway. *)
Lemma steps_any : forall (T : list member -> cons -> bytes -> Prop) ms pre, members_of strct = pre ++ ms -> liveMs pl al ms = true ->
  (forall ms' c d, List.length ms' <= List.length ms -> T ms' c d) -> steps camel r lenient lim gr strct cb mem T ms.
Proof.
  intros T. induction ms as [|m ms IH]; intros pre E LV HT; cbn [steps]; auto. cbn [liveMs] in LV. apply andb_true_iff in LV as (L1 & L2). split.
  - exists (fun _ => True). split; [intros c c' d _ _; apply HT; cbn; lia|]. split; [intros c c' d _ _; apply HT; cbn; lia|]. split; [intros; apply HT; auto|].
    eapply member_live; eauto.
  - apply (IH (pre ++ [m])); auto. { now rewrite <- app_assoc. } intros ms' c d L. apply HT. cbn [List.length]. lia.
Qed.

(** From the union on, the vector has a tag for the case. *)
Section Case.
Variable pre0 post : list member.
Variable u : string.
Variable tag : idref.
Variable len : option lconstraint.
Variable cs : list ucase.
Notation M := (MUnion u tag len cs).
Hypothesis Hms : members_of strct = pre0 ++ M :: post.
Variable c : ucase.
Hypothesis Hc : In c cs.
Hypothesis HLc : liveCase pl (refsMs post) tag len c = true.
Hypothesis HL : liveMs pl al (members_of strct) = true.
Definition caseTrack (ms : list member) (k : cons) (d : bytes) : Prop :=
  List.length (M :: post) <= List.length ms -> exists x, takes cv cs x c /\ tracks camel r lenient lim gr strct (rname tag) x ms k d.

Lemma liveMs_app : forall a b, liveMs pl al (a ++ b) = true -> liveMs pl al b = true.
Proof. induction a as [|m a IH]; intros b H; auto. cbn [app liveMs] in H. apply andb_true_iff in H as (_ & H). auto. Qed.

Lemma case_track_steps : forall mid pre, pre0 = pre ++ mid -> chain cb mem (mid ++ M :: post) -> steps camel r lenient lim gr strct cb mem caseTrack (mid ++ M :: post).
Proof.
  assert (TS : rscope tag = "") by (pose proof HLc as H; unfold liveCase, unused in H; repeat rewrite andb_true_iff in H; now apply String.eqb_eq).
  destruct (union_facts _ _ _ _ _ _ Hms) as (MO & RM & (sz & cst & EI) & HG).
  assert (NT : ~ In (rname tag) (fieldNames M)).
  { destruct (union_parts camel r gr sg grow ords Hords sel Hsel fuel callS strct u tag len cs MO RM sz cst EI) as (_ & _ & _ & _ & _ & _ & DN & _).
    intros J. rewrite disjC_spec in DN. apply (DN (rname tag) (rname tag)); auto. apply in_or_app. left. now apply In_localRef. }
  induction mid as [|m mid IH]; intros pre E CH; cbn [app steps] in *.
  - rewrite app_nil_r in E. subst pre. destruct CH as (ST & CH). split.
    + exists (tagFor r tag cs sz c). split; [intros k k' d _ _ F; cbn in F; lia|]. split.
      * intros k k' d T G L. destruct (T L) as (x & X1 & X2). exists x. split; auto. eapply tracks_grown; eauto.
      * split.
        -- intros k0 k2 dm dv GM GV LC _ (x & X1 & X2 & X3) L. exists x. split; auto. split; auto. intros J. exfalso.
           destruct ST as (_ & _ & D2 & _). rewrite disjC_spec in D2. unfold namesMs in J. cbn [flat_map] in J. apply in_app_iff in J as [J|J]; [contradiction|].
           apply (D2 (rname tag) (rname tag)); auto. cbn [refsM]. apply in_or_app. left. now apply In_localRef.
        -- intros g mvs g' I LOC LC H.
           assert (OD : oneDefaultb cs = true).
           { pose proof HL as H'. rewrite Hms in H'. apply liveMs_app in H'. cbn [liveMs liveM] in H'. repeat rewrite andb_true_iff in H'. tauto. }
           apply (union_live camel r lenient lim gr sg grow ords Hords sel Hsel fuel callS strct u tag len cs MO lists_ok RM sz cst EI gen HG (proj1 Hgen) pl Hsome
             (refsMs post) c OD Hc HLc g mvs g' I); auto.
           intros k x K. split; eauto. destruct (LC _ _ K) as [K'|K']; [rewrite NL in K'; discriminate|exact K'].
    + apply (steps_any caseTrack post (pre0 ++ [M])).
      * rewrite Hms, <- app_assoc. reflexivity.
      * pose proof HL as H'. rewrite Hms in H'. apply liveMs_app in H'. cbn [liveMs] in H'. now apply andb_true_iff in H'.
      * intros ms' k d L F. cbn in F. lia.
  - destruct CH as (ST & CH). split.
    + exists (fun _ => True). split; [|split; [|split]].
      * intros k k' d T G L. destruct (T L) as (x & X1 & X2). exists x. split; auto. eapply tracks_grown; eauto.
      * intros k k' d T G L. destruct (T L) as (x & X1 & X2). exists x. split; auto. eapply tracks_grown; eauto.
      * intros k0 k2 dm dv GM GV LC T _ L. destruct T as (x & X1 & X2); [rewrite app_length; cbn [List.length]; lia|]. exists x. split; auto.
        destruct ST as (_ & D1 & D2 & _ & D3 & GR & DR & _).
        eapply tracks_cons; eauto. intros DM k y K. destruct (DR DM) as (_ & DR'). apply DR'. destruct (LC _ _ K) as [K'|K']; [rewrite NL in K'; discriminate|].
        apply in_app_iff in K' as [K'|K']; auto. destruct m as [nm t| | | |]; try discriminate. cbn in DM. destruct t; try discriminate. destruct K'.
      * apply (member_live pre m (mid ++ M :: post)).
        -- rewrite Hms, E, <- app_assoc. reflexivity.
        -- pose proof HL as H'. rewrite Hms, E, <- app_assoc in H'. apply liveMs_app in H'. cbn [app liveMs] in H'. now apply andb_true_iff in H'.
    + apply (IH (pre ++ [m])); auto. now rewrite <- app_assoc.
Qed.
End Case.
End Level.

(** What a member list keeps, its struct keeps. *)
Lemma struct_keep : forall fuel callS, (forall s, okStruct s = true -> structSpec s (callS s)) ->
  forall gens : struct -> ucase -> list vec -> gst -> outcome (list vec * gst), (forall s, okStruct s = true -> genSpec s (gens s)) ->
  forall s, okStruct s = true -> forall T : list member -> cons -> bytes -> Prop,
  (forall ms g k vs, holds (T ms) g vs -> holds (T ms) g (sel k vs)) -> (forall c, T [] c []) ->
  (forall cb, noLocals cb -> chain camel r lenient lim gr sg s cb (gmember grow ords sel r fuel callS s (gens s)) (members_of s) ->
    steps camel r lenient lim gr s cb (gmember grow ords sel r fuel callS s (gens s)) T (members_of s)) ->
  (forall c c' d, T (members_of s) c d -> (forall sc k, sc <> "" -> cLookup c' sc k = cLookup c sc k) -> noLocals c' -> T (members_of s) c' d) ->
  forall g vs g', inv g ->
  structureWith ords (fun s ms => membersLoop grow sel (gmember grow ords sel r fuel callS s (gens s)) ms) s g = Ok (vs, g') -> holds (T (members_of s)) g' vs.
Proof.
  intros fuel callS HC gens HG s OK T KT T0 SS CT g vs g' I H. unfold structureWith in H.
  destruct (cloneGlobalMap_spec ords Hords (cur g) g (proj1 I)) as (j & g1 & c1 & E1 & -> & AM & M1 & W1 & L1). rewrite E1 in H. cbn [bind] in H.
  assert (NN1 : nonneg c1).
  { intros s0 k x K. rewrite L1 in K. destruct (String.eqb s0 ""); [discriminate|]. eapply (proj2 (proj2 I)); eauto. }
  assert (NL1 : noLocals c1) by (intros k; rewrite L1; reflexivity).
  destruct (adds_frame nobody nothing g g1 [c1] I AM W1) as (F1 & C1 & B1); [intros c' [<-|[]]; auto|].
  assert (LM1 : nmaps g1 = S (nmaps g)) by (destruct AM as (AM & _); rewrite AM, app_length; cbn; lia).
  destruct (newSlice [] g1) as [d g2] eqn:EN.
  destruct (newSlice_spec nobody nothing [] g1 d g2 (fr_inv _ _ _ _ F1) EN) as (F2 & O2 & S2 & R2 & M2 & C2 & N2).
  destruct (membersLoop _ _ _ _ _ _) as [[vs0 g3]| | |] eqn:EM; try discriminate. cbn [bind] in H. inversion H; subst vs0; clear H.
  destruct (struct_parts camel r lim gr sg s OK) as (NE & LO & TO & RN & GG & SG).
  assert (L2 : nmaps g2 = S (nmaps g)) by (rewrite M2; auto).
  pose proof (top_chain camel r lenient lim gr sg grow ords Hords sel Hsel Hcls fuel callS HC s OK (gens s) c1 (HG s OK) NL1 [] (members_of s) eq_refl LO TO) as CH.
  destruct (membersLoop_spec camel r lenient lim gr sg grow ords Hords sel Hsel s (small_ok camel r lim gr sg Hcls s OK) (nbufs g) (nmaps g) (nmaps g2) c1 _ _
    CH (mkVec d (nmaps g)) g2 vs g3) as (F3 & C3 & S3 & L3 & G3); auto.
  { apply (fr_inv _ _ _ _ F2). }
  { lia. }
  { cbn [vdata]. rewrite S2, B1. auto. }
  { rewrite (mapOf_maps g1 g2 _ M2). auto. }
  destruct (loop_keep camel r lenient lim gr sg grow ords Hords sel Hsel s (small_ok camel r lim gr sg Hcls s OK) (nbufs g) (nmaps g) (nmaps g2) c1 _ T KT
    _ CH (SS c1 NL1 CH) (T0 c1) (mkVec d (nmaps g)) g2 vs g3) as (v & Iv & TV); auto.
  { apply (fr_inv _ _ _ _ F2). }
  { lia. }
  { cbn [vdata]. rewrite S2, B1. auto. }
  { rewrite (mapOf_maps g1 g2 _ M2). auto. }
  assert (FC : fold_left (fun g v => clearMap (vcons v) g) vs (clearMap (cur g3) g3) = fold_left (fun g i => clearMap i g) (cur g3 :: map vcons vs) g3).
  { cbn [fold_left]. generalize (clearMap (cur g3) g3). clear. induction vs as [|v vs IH]; intros g; cbn; auto. }
  rewrite FC.
  assert (FV : Forall (fun i => i < nmaps g3) (cur g3 :: map vcons vs)).
  { constructor; [apply (fr_inv _ _ _ _ F3)|]. apply Forall_forall. intros i Ii. apply in_map_iff in Ii as (w & <- & Iw).
    rewrite Forall_forall in G3. apply (G3 _ Iw). }
  destruct (clear_spec _ g3 (fr_inv _ _ _ _ F3) FV) as (I4 & N4 & C4 & B4 & K4 & X4 & Y4 & Z4).
  assert (IC : In (vcons v) (cur g3 :: map vcons vs)) by (right; now apply in_map).
  exists v. split; auto. unfold readS. rewrite B4. eapply CT; [exact TV| |].
  - intros sc k NS. apply Z4. auto.
  - apply X4. auto.
Qed.

Lemma plain_level : forall n, plainCall (structureWith ords (gmembers grow ords sel r n)) /\
  forall s, plainGen (fun c => gmembers grow ords sel r n s (ucase_members c)).
Proof.
  intros n. split.
  - intros s P g w g' H. unfold structureWith in H. destruct (cloneGlobalMap ords (cur g) g) as [[c g1]| | |]; try discriminate. cbn [bind] in H.
    destruct (newSlice [] g1) as [d g2]. destruct (gmembers grow ords sel r n s (members_of s) [mkVec d c] g2) as [[vs g3]| | |] eqn:E; try discriminate.
    cbn [bind] in H. inversion H; subst. refine (gmembers_some grow ords sel Hne r pl Hpl n _ _ _ _ _ _ P _ E). intro; discriminate.
  - intros s c ev g vs g' P H. refine (gmembers_some grow ords sel Hne r pl Hpl n _ _ _ _ _ _ P _ H). intro; discriminate.
Qed.

Lemma structure_live : forall n, (forall s, okStruct s = true -> liveSpec s (structureWith ords (gmembers grow ords sel r n) s)).
Proof.
  induction n as [|n IH]; intros s OK LV g vs g' I H.
  - unfold structureWith in H. cbn [gmembers] in H. destruct (cloneGlobalMap ords (cur g) g) as [[c g1]| | |]; discriminate.
  - destruct (structure_spec camel r lenient lim gr sg grow ords Hords sel Hsel Hcls n) as (SP & GP).
    destruct (plain_level n) as (PC & PG).
    destruct (struct_keep n _ SP (fun s c => gmembers grow ords sel r n s (ucase_members c)) GP s OK (fun _ _ _ => True)) with (g := g) (vs := vs) (g' := g') as (v & Iv & _); auto.
    + intros _ g0 k vs0 (v & Iv & _). assert (S : some vs0) by (intros ->; destruct Iv). apply (Hne k) in S. destruct (sel k vs0) as [|w l] eqn:E; [now destruct S|].
      exists w. split; [now left|auto].
    + intros cb NL CH. refine (steps_any n _ SP IH PC s OK _ (GP s OK) (PG s) cb NL _ (members_of s) [] eq_refl LV _); auto.
    + intros ->. destruct Iv.
Qed.

(** What the struct [s] keeps, its suite keeps. *)
Lemma suites_keep : forall n s (T : cons -> bytes -> Prop), okStruct s = true -> Extern s = false ->
  (forall g vs g', inv g -> structureWith ords (gmembers grow ords sel r n) s g = Ok (vs, g') -> holds T g' vs) ->
  forall ss g res g', In s ss -> wfg g -> (forall i, nonneg (mapOf g i)) -> Forall (fun s => Extern s = false -> okStruct s = true) ss ->
  suites grow ords sel r n ss g = Ok (res, g') -> exists x, In x res /\ fst x = sname s /\ holds T g' (snd x).
Proof.
  intros n s T OK EX HT. induction ss as [|s1 ss IH]; intros g res g' Is W N F H; [destruct Is|]. cbn [suites] in H. inversion F as [|? ? F1 F2]; subst.
  destruct (Extern s1) eqn:E1.
  - destruct Is as [->|Is]; [congruence|]. eauto.
  - destruct (newMap NewConstraints g) as [c g1] eqn:EN. inversion EN; subst c g1; clear EN.
    set (g1 := mkG (maps g ++ [NewConstraints]) (cur g) (bufs g) (rnd g) (calls g)) in H.
    assert (M1 : forall i, i < nmaps g -> mapOf g1 i = mapOf g i) by (intros i Li; unfold g1, mapOf; cbn [maps]; now apply app_nth1).
    assert (N1 : nmaps g1 = S (nmaps g)) by (unfold g1; cbn [maps]; rewrite app_length; cbn; lia).
    assert (I1 : inv (setCur (nmaps g) g1)).
    { split; [|split; [change (nmaps g < nmaps g1); lia|]].
      - unfold wfg, g1. cbn [setCur maps]. apply Forall_app. split; auto. constructor; auto. split; constructor.
      - intros i. change (nonneg (mapOf g1 i)). destruct (Nat.lt_ge_cases i (nmaps g)); [rewrite M1; auto|]. unfold mapOf, g1. cbn [maps]. rewrite app_nth2 by lia.
        destruct (i - nmaps g) as [|[|q]]; cbn; intros s0 k x K; discriminate. }
    destruct (structure grow ords sel r n s1 (setCur (nmaps g) g1)) as [[vs g2]| | |] eqn:ES; try discriminate. cbn [bind] in H.
    destruct (suites grow ords sel r n ss g2) as [[rest g3]| | |] eqn:ER; try discriminate. cbn [bind] in H. inversion H; subst res g3; clear H.
    unfold structure in ES. destruct (proj1 (structure_spec camel r lenient lim gr sg grow ords Hords sel Hsel Hcls n) s1 (F1 eq_refl) _ _ _ I1 ES) as (FS & _ & _ & _ & _ & GS).
    apply frame_setCur in FS. pose proof (fr_inv _ _ _ _ FS) as I2.
    destruct Is as [->|Is].
    + destruct (HT _ _ _ I1 ES) as (v & Iv & TV). exists (sname s, vs). split; [now left|]. split; auto. cbn [snd].
      destruct (suites_spec camel r lenient lim gr sg grow ords Hords sel Hsel Hcls n ss g2 rest g' (proj1 I2) (proj2 (proj2 I2)) F2 ER) as ((R1 & R2 & R3) & _).
      rewrite Forall_forall in GS. destruct (GS v Iv) as (V1 & V2 & V3 & V4 & V5 & V6). destruct (keep_ok _ _ _ _ R2 (proj1 V1) V1) as (K1 & K2 & _).
      exists v. split; auto. rewrite K2, R3 by lia. auto.
    + destruct (IH g2 rest g' Is (proj1 I2) (proj2 (proj2 I2)) F2 ER) as (x & X1 & X2). exists x. split; [now right|auto].
Qed.

Lemma corpus_keep : forall os n fs rn c s (T : cons -> bytes -> Prop), NewResolverFiles os fs = Ok r -> classFiles camel r gr sg fs = true -> lensFiles lim fs = true ->
  GenerateFiles grow ords sel os n fs rn = Ok c -> In s (definedStructs fs) ->
  (okStruct s = true -> forall g vs g', inv g -> structureWith ords (gmembers grow ords sel r n) s g = Ok (vs, g') -> holds T g' vs) ->
  exists su, In su c /\ stype su = sname s /\ exists v, In v (svectors su) /\ T (snd v) (fst v).
Proof.
  intros os n fs rn c s T ER CL LF H IS HT. unfold GenerateFiles in H. rewrite ER in H. cbn [bind] in H.
  destruct (suites grow ords sel r n (flat_map fstructs fs) (mkG [] 0 [] rn 0)) as [[ss g]| | |] eqn:ES; try discriminate. cbn [bind] in H. inversion H; subst c; clear H.
  assert (OKS : forall s, In s (flat_map fstructs fs) -> Extern s = false -> okStruct s = true).
  { intros s0 I E. unfold classFiles in CL. unfold lensFiles in LF. rewrite forallb_forall in CL, LF.
    assert (In s0 (definedStructs fs)) by (unfold definedStructs; apply filter_In; rewrite E; auto). apply andb_true_iff. auto. }
  pose proof IS as IS'. unfold definedStructs in IS'. apply filter_In in IS' as (I1 & I2). apply negb_true_iff in I2.
  destruct (suites_keep n s T (OKS _ I1 I2) I2 (HT (OKS _ I1 I2)) (flat_map fstructs fs) (mkG [] 0 [] rn 0) ss g) as (x & X1 & X2 & v & Iv & TV); auto.
  { constructor. }
  { intros i s0 k y K. unfold mapOf in K. destruct i; discriminate. }
  { apply Forall_forall. auto. }
  eexists. split; [apply in_map_iff; exists x; split; [reflexivity|exact X1]|]. split; [exact X2|]. cbn [svectors].
  eexists. split; [apply in_map_iff; exists v; split; [reflexivity|exact Iv]|]. exact TV.
Qed.

(** * Coverage of a union case *)
Hypothesis Hall : forall k vs v, In v vs -> In v (sel k vs).

(** The vector [d], with constraints [k], is an encoding whose tag selects [c]. *)
Definition covers (s : struct) (tag : idref) (cs : list ucase) (c : ucase) (k : cons) (d : bytes) : Prop :=
  exists x, takes cv cs x c /\ ((blen d < lim)%Z -> forall cenv fs pos tail, world camel s cenv fs -> agreeG camel (scontexts s) cenv k ->
    (greedyMs gr (members_of s) = true -> tail = []) ->
    exists fs', EncMs cenv pos (members_of s) fs d tail fs' /\ alookup (camel (rname tag)) fs' = Some (VInt x)).

Lemma structure_cover : forall n s pre u tag len cs post c, okStruct s = true -> liveMs pl al (members_of s) = true ->
  members_of s = pre ++ MUnion u tag len cs :: post -> In c cs -> liveCase pl (refsMs post) tag len c = true ->
  forall g vs g', inv g -> structureWith ords (gmembers grow ords sel r n) s g = Ok (vs, g') -> holds (covers s tag cs c) g' vs.
Proof.
  intros n s pre u tag len cs post c OK LV E Ic LC g vs g' I H. destruct n as [|n].
  { unfold structureWith in H. cbn [gmembers] in H. destruct (cloneGlobalMap ords (cur g) g) as [[c0 g1]| | |]; discriminate. }
  destruct (structure_spec camel r lenient lim gr sg grow ords Hords sel Hsel Hcls n) as (SP & GP). destruct (plain_level n) as (PC & PG).
  destruct (struct_parts camel r lim gr sg s OK) as (NE & LO & TO & RN & GG & SG).
  assert (TS : rscope tag = "") by (pose proof LC as H'; unfold liveCase, unused in H'; repeat rewrite andb_true_iff in H'; now apply String.eqb_eq).
  assert (TN : In (rname tag) (namesMs (members_of s))).
  { apply RN. rewrite E. unfold refsMs. rewrite flat_map_app. apply in_or_app. right. cbn [flat_map]. apply in_or_app. left. cbn [refsM]. apply in_or_app. left. now apply In_localRef. }
  assert (LN : List.length (MUnion u tag len cs :: post) <= List.length (members_of s)) by (rewrite E, app_length; lia).
  destruct (struct_keep n _ SP (fun s c => gmembers grow ords sel r n s (ucase_members c)) GP s OK (caseTrack s post u tag len cs c)) with (g := g) (vs := vs) (g' := g') as (v & Iv & TV); auto.
  - intros ms g0 k vs0 (v & Iv & X). exists v. split; auto.
  - intros c0 F. cbn in F. lia.
  - intros cb NL CH. pose proof CH as CH'. rewrite E in CH |- *.
    refine (case_track_steps n _ SP (structure_live n) PC s OK _ (GP s OK) (PG s) cb NL pre post u tag len cs E c Ic LC LV pre [] eq_refl CH).
  - intros c0 c' d T CG NL' _. destruct (T LN) as (x & X1 & X2 & _). exists x. split; auto. split; [|contradiction].
    intros J L cenv fs pos tail W AG _ GT. apply X2; auto.
    + intros sc k y IS NS K. apply AG; auto. rewrite CG; auto.
    + intros k y K (J1 & J2). exfalso. auto.
  - exists v. split; auto. destruct (TV LN) as (x & X1 & X2 & _). exists x. split; auto. intros L cenv fs pos tail W AG GT. apply X2; auto.
    intros k y K (J1 & J2). exfalso. auto.
Qed.
End Cover.
