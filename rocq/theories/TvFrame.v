(** Generation of a list of members: which maps and arrays change, and why the
    vectors stay good. *)
From Coq Require Import ZArith String List Bool Lia Arith ZifyBool ZifyNat Permutation.
From Verif Require Import Base Ast IntervalsModel InspectModel GoLang GenModel GenCheck WireSpec
  TvModel TvConstraints TvHeap TvFacts TvClass TvGood TvLeaf.
Import ListNotations.
Open Scope string_scope.
Open Scope list_scope.
Open Scope nat_scope.

Notation nmaps g := (List.length (maps g)).
Notation nbufs g := (List.length (bufs g)).

(** Go maps, a current one, no negative values. *)
Definition inv (g : gst) : Prop := wfg g /\ cur g < nmaps g /\ forall i, nonneg (mapOf g i).

(** From [g] to [g'] only the maps in [O] change, by small new entries for names
    in [P]; arrays keep their contents. *)
Record frame (O : nat -> Prop) (P : string -> Prop) (g g' : gst) : Prop := {
  fr_maps : nmaps g <= nmaps g';
  fr_bufs : keepB (nbufs g) g g';
  fr_inv : inv g';
  fr_own : forall i, i < nmaps g -> ~ O i -> mapOf g' i = mapOf g i;
  fr_grow : forall i, i < nmaps g -> grown P (mapOf g i) (mapOf g' i) }.

Lemma grown_refl : forall P c, grown P c c.
Proof. intros P c. split; [intros s k x H; auto|auto]. Qed.
Lemma grown_trans : forall P a b c, grown P a b -> grown P b c -> grown P a c.
Proof.
  intros P a b c (E1 & N1) (E2 & N2). split; [intros s k x H; auto|]. intros s k x H. destruct (N2 _ _ _ H) as [H'|]; auto.
Qed.
Lemma grown_weak : forall (P Q : string -> Prop) a b, (forall k, P k -> Q k) -> grown P a b -> grown Q a b.
Proof. intros P Q a b I (E & N). split; auto. intros s k x H. destruct (N _ _ _ H) as [H'|(B & C)]; auto. Qed.

Lemma keepB_refl : forall b g, keepB b g g.
Proof. split; auto. Qed.
Lemma keepB_trans : forall a b g1 g2 g3, a <= b -> keepB a g1 g2 -> keepB b g2 g3 -> keepB a g1 g3.
Proof. intros a b g1 g2 g3 L (A & B) (C & D). split; [lia|]. intros i I. rewrite D by lia. apply B. auto. Qed.
Lemma keepB_weak : forall a b g1 g2, a <= b -> keepB b g1 g2 -> keepB a g1 g2.
Proof. intros a b g1 g2 L (A & B). split; auto. intros. apply B. lia. Qed.
Lemma keep_ok : forall b g g' s, keepB b g g' -> sbuf s < b -> okS g s -> okS g' s /\ readS g' s = readS g s /\ capOf g' s = capOf g s.
Proof.
  intros b g g' s (L & K) B (O1 & O2). unfold okS, readS, capOf in *. rewrite K by auto. repeat split; auto. lia.
Qed.

Lemma frame_refl : forall O P g, inv g -> frame O P g g.
Proof. intros. constructor; auto using keepB_refl, grown_refl. Qed.
Lemma frame_trans : forall (O O1 : nat -> Prop) (P P1 : string -> Prop) g g1 g2, frame O P g g1 -> frame O1 P1 g1 g2 ->
  (forall i, i < nmaps g -> O1 i -> O i) -> (forall k, P1 k -> P k) -> frame O P g g2.
Proof.
  intros O O1 P P1 g g1 g2 [A1 A2 A3 A4 A5] [B1 B2 B3 B4 B5] HO HP. constructor; auto.
  - lia.
  - apply (keepB_trans (nbufs g) (nbufs g1) g g1 g2); auto. destruct A2. lia.
  - intros i I N. rewrite B4 by (auto; lia). auto.
  - intros i I. eapply grown_trans; [eauto|]. eapply grown_weak; [eauto|]. apply B5. lia.
Qed.
Lemma frame_weak : forall (O O1 : nat -> Prop) (P P1 : string -> Prop) g g', frame O P g g' -> (forall i, i < nmaps g -> O i -> O1 i) -> (forall k, P k -> P1 k) -> frame O1 P1 g g'.
Proof. intros O O1 P P1 g g' [A B C D E] HO HP. constructor; auto. intros i I. eapply grown_weak; eauto. Qed.

Lemma mapOf_maps : forall g g' i, maps g' = maps g -> mapOf g' i = mapOf g i.
Proof. intros. unfold mapOf. now rewrite H. Qed.
Lemma inv_same : forall g g', maps g' = maps g -> cur g' = cur g -> inv g -> inv g'.
Proof.
  intros g g' M C (W & L & N). unfold inv, wfg in *. rewrite M, C. repeat split; auto. intros i. rewrite (mapOf_maps g g' i M). auto.
Qed.
Lemma frame_bufs : forall O P g g', inv g -> maps g' = maps g -> cur g' = cur g -> keepB (nbufs g) g g' -> frame O P g g'.
Proof.
  intros O P g g' I M C K. constructor; auto.
  - now rewrite M.
  - eapply inv_same; eauto.
  - intros. now apply mapOf_maps.
  - intros. rewrite (mapOf_maps g g' i M). apply grown_refl.
Qed.
Lemma frame_sameH : forall O P g g', inv g -> sameH g g' -> frame O P g g'.
Proof.
  intros O P g g' I (M & C & B). apply frame_bufs; auto. split; [rewrite B; auto|]. intros. now rewrite B.
Qed.
Lemma frame_setCur : forall O P g g' c, frame O P (setCur c g) g' -> frame O P g g'.
Proof. intros O P g g' c [A B C D E]. constructor; auto. Qed.
Lemma inv_setCur : forall g c, inv g -> c < nmaps g -> inv (setCur c g).
Proof. intros g c (W & L & N) C. split; [exact W|]. split; [exact C|exact N]. Qed.

(** A new slice. *)
Lemma newSlice_spec : forall O P b g s g', inv g -> newSlice b g = (s, g') ->
  frame O P g g' /\ okS g' s /\ sbuf s = nbufs g /\ readS g' s = b /\ maps g' = maps g /\ cur g' = cur g /\ nbufs g' = S (nbufs g).
Proof.
  intros O P b g s g' I H. unfold newSlice in H. inversion H; subst; clear H.
  assert (K : keepB (nbufs g) g (mkG (maps g) (cur g) (bufs g ++ [b]) (rnd g) (calls g))).
  { split; cbn [bufs]; [rewrite app_length; lia|]. intros i Li. now apply app_nth1. }
  split; [apply frame_bufs; auto|]. unfold okS, capOf, readS. cbn [sbuf slen bufs maps cur].
  rewrite app_length, app_nth2, Nat.sub_diag by lia. cbn [nth List.length]. rewrite firstn_all. repeat split; lia.
Qed.
Lemma vectorOf_spec : forall O P b g v g', inv g -> vectorOf b g = (v, g') ->
  frame O P g g' /\ okS g' (vdata v) /\ sbuf (vdata v) = nbufs g /\ vcons v = cur g /\ readS g' (vdata v) = b /\ maps g' = maps g /\ cur g' = cur g /\ nbufs g' = S (nbufs g).
Proof.
  intros O P b g v g' I H. unfold vectorOf in H. destruct (newSlice b g) as [s g1] eqn:E. inversion H; subst; clear H.
  destruct (newSlice_spec O P _ _ _ _ I E) as (F & OK & S1 & R1 & M1 & C1 & N1). cbn [vdata vcons]. repeat split; try apply F; try apply OK; auto.
Qed.
(** A new map. *)
Lemma adds_frame : forall O P g g' news, inv g -> addsMaps g g' news -> wfg g' -> (forall c, In c news -> nonneg c) -> frame O P g g' /\ cur g' = cur g /\ bufs g' = bufs g.
Proof.
  intros O P g g' news (W & L & N) (M & C & B & _) W' NN. split; auto.
  assert (Q : forall i, i < nmaps g -> mapOf g' i = mapOf g i) by (intros; eapply mapOf_app; eauto).
  constructor; auto.
  - rewrite M, app_length. lia.
  - split; rewrite B; auto.
  - split; auto. split; [rewrite C, M, app_length; lia|]. intros i. destruct (Nat.lt_ge_cases i (nmaps g)); [rewrite Q; auto|].
    unfold mapOf. rewrite M, app_nth2 by lia. destruct (nth_in_or_default (i - nmaps g) news []) as [I|E]; [auto|]. rewrite E.
    intros s k x X. discriminate.
  - intros i I. rewrite Q by auto. apply grown_refl.
Qed.

Section Frame.
Variable camel : string -> string.
Variable r : resolver.
Variable lenient : Prop.
Variable lim : Z.
Variable gr sg : string -> bool.
Variable grow : nat -> nat -> nat.
Variable ords : nat -> uorders.
Hypothesis Hords : forall n, goodOrders (ords n).
Variable sel : nat -> list vec -> list vec.
(** The selector drops and rearranges vectors. *)
Hypothesis Hsel : forall n vs, exists rest, Permutation (sel n vs ++ rest) vs.

Lemma sel_Forall : forall (Q : vec -> Prop) n vs, Forall Q vs -> Forall Q (sel n vs).
Proof.
  intros Q n vs F. destruct (Hsel n vs) as (rest & P). apply Forall_forall. intros x I. rewrite Forall_forall in F. apply F.
  eapply Permutation_in; [exact P|]. apply in_or_app; auto.
Qed.
Lemma sel_length : forall n vs, List.length (sel n vs) <= List.length vs.
Proof. intros n vs. destruct (Hsel n vs) as (rest & P). apply Permutation_length in P. rewrite app_length in P. lia. Qed.
Lemma sel_safe : forall g n vs, safe g (map vdata vs) -> safe g (map vdata (sel n vs)).
Proof.
  intros g n vs S. destruct (Hsel n vs) as (rest & P). apply Permutation_sym in P. apply (Permutation_map vdata) in P.
  eapply safe_perm in S; [|exact P]. rewrite map_app in S. now apply safe_app in S.
Qed.

Section Struct.
Variable strct : struct.
Notation R := (refsMs (members_of strct)).
Hypothesis Hsmall : countsOK r strct.
Notation goodV := (goodV camel r lenient lim gr strct).
Notation goodM := (goodM camel r lenient lim gr strct).

Definition isUnion (m : member) : Prop := match m with MUnion _ _ _ _ => True | _ => False end.

(** What [mem] promises for [m]. *)
Definition newV (g g' : gst) (v : vec) : Prop :=
  okS g' (vdata v) /\ nbufs g <= sbuf (vdata v) /\ vcons v < nmaps g' /\ (vcons v = cur g \/ nmaps g <= vcons v).
Definition memSpec (m : member) (mem : gst -> outcome (list vec * gst)) : Prop :=
  forall g mvs g', inv g ->
  (forall k x, cLookup (mapOf g (cur g)) "" k = Some x -> In k R /\ (isUnion m -> ~ In k (fieldNames m))) ->
  mem g = Ok (mvs, g') ->
  frame (eq (cur g)) (fun k => In k (refsF m)) g g' /\ (cur g' = cur g \/ nmaps g <= cur g') /\
  safe g' (map vdata mvs) /\ (singleM sg m = true -> List.length mvs <= 1) /\
  Forall (fun mv => newV g g' mv /\ goodM m (mapOf g (cur g)) (mapOf g' (vcons mv)) (readS g' (vdata mv))) mvs.

(** One list of members: the vectors start as one empty vector with map [ci],
    holding [cb], in a state with [L0] maps; [b0] arrays are older. *)
Section Members.
Variable b0 ci L0 : nat.
Variable cb : cons.

(** A vector for the members [ms]; its local entries are among [kl]. *)
Definition Vg (kl : list string) (ms : list member) (g : gst) (v : vec) : Prop :=
  okS g (vdata v) /\ b0 <= sbuf (vdata v) /\ vcons v < nmaps g /\ (vcons v = ci \/ L0 <= vcons v) /\
  extends cb (mapOf g (vcons v)) /\
  (forall k x, cLookup (mapOf g (vcons v)) "" k = Some x -> cLookup cb "" k = Some x \/ In k kl) /\
  goodV ms cb (mapOf g (vcons v)) (readS g (vdata v)).

Lemma Vg_frame : forall O P kl ms g g' v, frame O P g g' -> (forall k, P k -> ~ In k (namesMs ms)) -> (forall k, P k -> In k kl) ->
  (forall k, P k -> In k (countNames (members_of strct))) -> Vg kl ms g v -> Vg kl ms g' v.
Proof.
  intros O P kl ms g g' v F PN PK PC (V1 & V2 & V3 & V4 & V5 & V6 & V7).
  destruct (keep_ok _ _ _ _ (fr_bufs _ _ _ _ F) (proj1 V1) V1) as (K1 & K2 & _).
  pose proof (fr_grow _ _ _ _ F _ V3) as GR. pose proof (fr_maps _ _ _ _ F).
  split; auto. split; auto. split; [lia|]. split; auto. split; [intros s k x E; apply GR; auto|]. split.
  - intros k x E. destruct (proj2 GR _ _ _ E) as [E'|(_ & E')]; eauto.
  - rewrite K2. eapply goodV_grown; eauto.
Qed.

Lemma extend_spec : forall m ms mem, memSpec m mem ->
  disjC camel (fieldNames m) (namesMs ms) = true -> disjC camel (refsM m) (namesMs ms) = true -> disjC camel (refsF m) (fieldNames m) = true ->
  forallb (fun k => memb k (fieldNames m) || disjC camel [k] (fieldNames m)) (refsMs ms) = true ->
  (greedyM gr m = true -> ms = []) ->
  (dropM m = true -> noLocals cb /\ forall k, In k (refsMs ms) -> In k (namesMs ms)) ->
  (forall k x, cLookup cb "" k = Some x -> In k R /\ (isUnion m -> ~ In k (fieldNames m))) ->
  (forall k, In k (refsMs (m :: ms)) -> In k R) -> (isUnion m -> forall k, In k (refsMs ms) -> ~ In k (fieldNames m)) ->
  (forall k, In k (refsF m) -> In k (countNames (members_of strct))) ->
  forall vs g e g', inv g -> L0 <= nmaps g -> b0 <= nbufs g -> Forall (Vg (refsF m ++ refsMs ms) ms g) vs ->
  extend grow mem vs g = Ok (e, g') ->
  frame (fun i => i = ci \/ L0 <= i) (fun k => In k (refsF m)) g g' /\
  (cur g' = cur g /\ vs = [] \/ cur g' = ci \/ L0 <= cur g') /\ safe g' (map vdata e) /\ (singleM sg m = true -> List.length e <= List.length vs) /\
  Forall (fun v => Vg (refsMs (m :: ms)) (m :: ms) g' v /\ nbufs g <= sbuf (vdata v)) e.
Proof.
  intros m ms mem SP D1 D2 D4 D3 GR DR CB RR UN CN.
  assert (RF : forall k, In k (refsF m) -> In k (refsM m)) by (intros k I; destruct m; auto; destruct I).
  assert (NN : forall k, In k (refsF m) -> ~ In k (namesMs (m :: ms))).
  { intros k I J. unfold namesMs in J. cbn [flat_map] in J. apply in_app_iff in J as [J|J].
    - rewrite disjC_spec in D4. now apply (D4 k k).
    - rewrite disjC_spec in D2. apply (D2 k k); auto. }
  induction vs as [|v vs IH]; intros g e g' I LG BG FV H; cbn [extend] in H.
  - inversion H; subst. split; [now apply frame_refl|]. split; [auto|]. repeat split; auto.
  - inversion FV as [|? ? V FV']; subst. pose proof V as (V1 & V2 & V3 & V4 & V5 & V6 & V7).
    destruct (mem (setCur (vcons v) g)) as [[mvs g1]| | |] eqn:EM; try discriminate. cbn [bind] in H.
    destruct (prepend grow v mvs g1) as [e1 g2] eqn:EP.
    destruct (extend grow mem vs g2) as [[rest g3]| | |] eqn:EX; try discriminate. cbn [bind] in H. inversion H; subst; clear H.
    destruct (SP (setCur (vcons v) g) mvs g1) as (F1 & C1 & S1 & L1 & G1); auto.
    { now apply inv_setCur. }
    { intros k x E. change (mapOf (setCur (vcons v) g) (cur (setCur (vcons v) g))) with (mapOf g (vcons v)) in E.
      destruct (V6 _ _ E) as [E'|E']; [eauto|]. split.
      - apply RR. unfold refsMs. cbn [flat_map]. apply in_app_iff in E' as [E'|E']; apply in_or_app; auto.
      - intros U. destruct m; try contradiction. cbn [refsF app] in E'. apply UN; auto. }
    cbn [setCur cur] in F1, C1, G1. apply frame_setCur in F1.
    destruct (keep_ok _ _ _ _ (fr_bufs _ _ _ _ F1) (proj1 V1) V1) as (K1 & K2 & _).
    destruct (prepend_spec grow v mvs g1 e1 g2 (nbufs g) [] EP K1 (proj1 V1)) as ((M2 & C2 & _ & _) & KB & F2 & _ & S2 & _).
    { eapply Forall_impl; [|exact G1]. intros a ((A1 & A2 & _) & _). auto. }
    { constructor. }
    { now rewrite app_nil_r. }
    rewrite app_nil_r in S2.
    assert (F02 : frame (fun i => i = ci \/ L0 <= i) (fun k => In k (refsF m)) g g2).
    { pose proof (frame_weak _ (fun i => i = ci \/ L0 <= i) _ (fun k => In k (refsF m)) _ _ F1) as [A1 A2 A3 A4 A5]; auto.
      { intros i _ <-. auto. }
      constructor.
      - now rewrite M2.
      - apply (keepB_trans (nbufs g) (nbufs g) g g1 g2); auto.
      - eapply inv_same; eauto.
      - intros i Li N. rewrite (mapOf_maps g1 g2 i M2). auto.
      - intros i Li. rewrite (mapOf_maps g1 g2 i M2). auto. }
    assert (E1G : Forall (fun v => Vg (refsMs (m :: ms)) (m :: ms) g2 v /\ nbufs g <= sbuf (vdata v)) e1).
    { assert (NB2 : nbufs g <= nbufs g2) by apply (fr_bufs _ _ _ _ F02).
      clear EM EP S1 S2 L1 EX IH FV FV'. induction F2 as [|mv d mvs e1 X F2 IHF]; [constructor|]. inversion G1 as [|? ? Y G1']; subst.
      constructor; [|auto]. destruct X as (X1 & X2 & X3 & X4). destruct Y as ((Y1 & Y2 & Y3 & Y4) & Y5). split; auto.
      unfold Vg. rewrite X3, X4, (mapOf_maps g1 g2 _ M2), M2, K2. split; auto. split; [lia|]. split; auto.
      split; [destruct Y4 as [->|Y4]; auto; right; cbn [setCur maps] in Y4; lia|].
      pose proof Y5 as (Z1 & Z2 & _).
      split; [|split].
      - destruct (dropM m) eqn:DM; [|intros s k x E; auto]. destruct Z1 as (Z1 & NL). destruct DR as (NLB & _); auto.
        intros s k x E. destruct (string_dec s "") as [->|NE]; [rewrite NLB in E; discriminate|]. auto.
      - intros k x E. destruct (Z2 _ _ E) as [E'|E'].
        + destruct (V6 _ _ E') as [E2|E2]; auto. right. unfold refsMs. cbn [flat_map]. apply in_or_app. apply in_app_iff in E2 as [E2|E2]; auto.
        + right. unfold refsMs. cbn [flat_map]. apply in_or_app; auto.
      - eapply goodV_cons; eauto. intros DM. destruct DR as (NLB & DR); auto. split; auto. intros k x E.
        destruct (V6 _ _ E) as [E'|E']; [rewrite NLB in E'; discriminate|]. apply in_app_iff in E' as [E'|E']; auto.
        destruct m as [nm t| | | |]; try discriminate. cbn in DM. destruct t; try discriminate. destruct E'. }
    destruct (IH g2 rest g') as (F3 & C3 & S3 & L3 & G3); auto.
    { apply (fr_inv _ _ _ _ F02). }
    { pose proof (fr_maps _ _ _ _ F02). lia. }
    { pose proof (proj1 (fr_bufs _ _ _ _ F02)). lia. }
    { eapply Forall_impl; [|exact FV']. intros a A. eapply Vg_frame; eauto.
      - intros k Ik J. apply (NN k Ik). unfold namesMs. cbn [flat_map]. apply in_or_app; auto.
      - intros k Ik. apply in_or_app; auto. }
    assert (NB2 : nbufs g <= nbufs g2) by apply (fr_bufs _ _ _ _ F02).
    split; [eapply frame_trans; eauto|]. split; [|split; [|split]].
    + right. destruct C3 as [(C3 & ->)|C3]; auto. rewrite C3, C2. destruct C1 as [->|C1]; auto. cbn [setCur maps] in C1. right. lia.
    + rewrite map_app. apply safe_app. split; [|split; auto].
      * eapply safe_ext; [|exact S2]. intros s Is. apply in_map_iff in Is as (d & <- & Id). rewrite Forall_forall in E1G.
        destruct (E1G _ Id) as ((A1 & _) & _). eapply keep_ok; [apply (fr_bufs _ _ _ _ F3)|apply A1|auto].
      * apply Forall_forall. intros s Is. apply Forall_forall. intros t It E.
        apply in_map_iff in Is as (d & <- & Id). apply in_map_iff in It as (d' & <- & Id'). rewrite Forall_forall in E1G, G3.
        destruct (E1G _ Id) as (((A1 & _) & _) & _). destruct (G3 _ Id') as (_ & A2). lia.
    + intros SG. rewrite app_length. specialize (L3 SG). specialize (L1 SG). assert (List.length e1 = List.length mvs).
      { clear - F2. induction F2; cbn; auto. } cbn [List.length]. lia.
    + apply Forall_app. split.
      * eapply Forall_impl; [|exact E1G]. intros a (A & B). split; auto. eapply Vg_frame; eauto.
        intros k Ik. unfold refsMs. cbn [flat_map]. apply in_or_app; auto.
      * eapply Forall_impl; [|exact G3]. intros a (A & B). split; auto. lia.
Qed.

(** Everything needed to generate the members one by one. *)
Definition stepOK (mem : member -> gst -> outcome (list vec * gst)) (m : member) (ms : list member) : Prop :=
  memSpec m (mem m) /\
  disjC camel (fieldNames m) (namesMs ms) = true /\ disjC camel (refsM m) (namesMs ms) = true /\ disjC camel (refsF m) (fieldNames m) = true /\
  forallb (fun k => memb k (fieldNames m) || disjC camel [k] (fieldNames m)) (refsMs ms) = true /\
  (greedyM gr m = true -> ms = []) /\
  (dropM m = true -> noLocals cb /\ forall k, In k (refsMs ms) -> In k (namesMs ms)) /\
  (forall k x, cLookup cb "" k = Some x -> In k R /\ (isUnion m -> ~ In k (fieldNames m))) /\
  (forall k, In k (refsMs (m :: ms)) -> In k R) /\ (isUnion m -> forall k, In k (refsMs ms) -> ~ In k (fieldNames m)) /\
  (forall k, In k (refsF m) -> In k (countNames (members_of strct))).
Fixpoint chain (mem : member -> gst -> outcome (list vec * gst)) (ms : list member) : Prop :=
  match ms with [] => True | m :: ms' => stepOK mem m ms' /\ chain mem ms' end.

Lemma membersLoop_spec : forall mem ms, chain mem ms -> forall ev g vs g', inv g -> L0 = nmaps g -> ci < nmaps g ->
  okS g (vdata ev) -> b0 <= sbuf (vdata ev) -> vcons ev = ci -> readS g (vdata ev) = [] -> mapOf g ci = cb ->
  membersLoop grow sel mem ms [ev] g = Ok (vs, g') ->
  frame (eq ci) (fun k => In k (refsMs ms)) g g' /\
  (cur g' = cur g /\ ms = [] \/ cur g' = ci \/ nmaps g <= cur g') /\ safe g' (map vdata vs) /\
  (forallb (singleM sg) ms = true -> List.length vs <= 1) /\
  Forall (Vg (refsMs ms) ms g') vs.
Proof.
  intros mem. induction ms as [|m ms IH]; intros CH ev g vs g' I EL LC OE BE EV RE EC H; cbn [membersLoop] in H.
  - inversion H; subst vs g'. split; [now apply frame_refl|]. split; auto. split; [cbn; auto|]. split; auto. constructor; auto.
    unfold Vg. rewrite RE, EV, EC. split; auto. split; auto. split; auto. split; auto. split; [intros s k x E; auto|]. split; auto.
    apply goodV_nil.
  - destruct CH as (ST & CH). destruct ST as (SP & D1 & D2 & D4 & D3 & GR & DR & CB & RR & UN & CN).
    destruct (membersLoop grow sel mem ms [ev] g) as [[vs1 g1]| | |] eqn:E1; try discriminate. cbn [bind] in H.
    destruct (extend grow (mem m) vs1 g1) as [[e g2]| | |] eqn:E2; try discriminate. cbn [bind] in H.
    destruct (IH CH ev g vs1 g1) as (F1 & C1 & S1 & L1 & G1); auto.
    pose proof (fr_maps _ _ _ _ F1) as LM. pose proof (proj1 (fr_bufs _ _ _ _ F1)) as LB.
    destruct (extend_spec m ms (mem m) SP D1 D2 D4 D3 GR DR CB RR UN CN vs1 g1 e g2) as (F2 & C2 & S2 & L2 & G2); auto.
    { apply (fr_inv _ _ _ _ F1). }
    { lia. }
    { destruct OE. lia. }
    { eapply Forall_impl; [|exact G1]. intros v (V1 & V2 & V3 & V4 & V5 & V6 & V7). refine (conj V1 (conj V2 (conj V3 (conj V4 (conj V5 (conj _ V7)))))).
      intros k x E. destruct (V6 _ _ E); auto. right. apply in_or_app; auto. }
    unfold select in H. inversion H; subst vs g'; clear H.
    assert (TK : frame (eq ci) (fun k => In k (refsMs (m :: ms))) g g2).
    { assert (F1' : frame (eq ci) (fun k => In k (refsMs (m :: ms))) g g1).
      { eapply frame_weak; [exact F1|auto|]. intros k J. unfold refsMs. cbn [flat_map]. apply in_or_app; auto. }
      eapply frame_trans; [exact F1'|exact F2| |].
      - intros i J [->|K]; auto. lia.
      - intros k J. unfold refsMs. cbn [flat_map]. apply in_or_app. left. destruct m; auto; destruct J. }
    split; [|split; [|split; [|split]]].
    + destruct TK as [T1 T2 T3 T4 T5]. constructor; auto.
    + right. change (cur (tick g2)) with (cur g2). destruct C2 as [(C2 & ->)|[C2|C2]]; [|now left|right; lia].
      rewrite C2. destruct C1 as [(_ & ->)|[C1|C1]]; auto. discriminate E1.
    + eapply safe_ext; [|exact (sel_safe g2 (calls g2) e S2)]. reflexivity.
    + intros SG. cbn [forallb] in SG. apply andb_true_iff in SG as (SG1 & SG2). specialize (L1 SG2). specialize (L2 SG1). pose proof (sel_length (calls g2) e). lia.
    + apply sel_Forall. eapply Forall_impl; [|exact G2]. intros v (V & _). exact V.
Qed.
End Members.
End Struct.
End Frame.
