(** Test vector generation finishes: with structs that do not contain
    themselves, integer lists that are in order, and default cases that some but
    not every tag takes, the generator returns a corpus or an error. *)
From Coq Require Import ZArith String List Bool Lia Arith Permutation.
From Verif Require Import Base Ast IntervalsModel IntervalsSpec IntervalsProofs RandomProofs InspectModel InspectSpec
  InspectProofs BranchProofs GenModel TvModel TvConstraints TvHeap TvFacts.
Import ListNotations.
Open Scope string_scope.
Open Scope list_scope.
Open Scope nat_scope.

(* ---------- the condition on the files ---------- *)

(** A source of random numbers in which, from any point on, the word zero comes
    up sooner or later. *)
Definition zeroAgain (d : nat -> Z) : Prop :=
  forall p, exists k, fst (randuint64 (mkRng d (p + 2 * k))) = 0%Z.

Section Class.
Variable r : resolver.
(** How deeply structs are nested in a struct. *)
Variable rank : string -> nat.
Let cv := Constant r.

(** An integer list that can be drawn from: not empty, and every range in
    order. *)
Definition drawable (l : intlist) : Prop := l <> [] /\ good_list cv l.

Fixpoint finType (strct : struct) (t : type) : Prop :=
  match t with
  | TInt _ (Some l) => drawable l
  | TStruct n => forall s, StructNonExtern r n = Ok s -> rank (sname s) < rank (sname strct)
  | TFixed b _ => finType strct b
  | TVar b _ => finType strct b
  | _ => True
  end.

(** The default case of a union can be drawn from: some value of the tag has no
    other case, and not all 64-bit integers belong to it. *)
Definition defaultDrawable (sz : Z) (cs : list ucase) : Prop :=
  (exists x, (0 <= x < 2 ^ sz)%Z /\ Forall (fun c => ~ case_matches cv c x) cs) /\
  ((sz < 64)%Z \/ exists c, In c cs /\ ucase_list c <> None).
Definition finCases (strct : struct) (tag : idref) (cs : list ucase) : Prop :=
  forall sz cst, IntType r tag strct = Ok (sz, cst) ->
    (0 <= sz <= 64)%Z /\ (forall c, In c cs -> match ucase_list c with Some l => drawable l | None => defaultDrawable sz cs end).

Fixpoint finMember (strct : struct) (m : member) : Prop :=
  match m with
  | MField _ t => finType strct t
  | MUnion _ tag _ cs =>
      finCases strct tag cs /\
      (fix allc (cs : list ucase) : Prop :=
         match cs with
         | [] => True
         | UCase _ ms :: cs' =>
             (fix allm (ms : list member) : Prop :=
                match ms with [] => True | m' :: ms' => finMember strct m' /\ allm ms' end) ms /\ allc cs'
         end) cs
  | _ => True
  end.
Definition finStruct (s : struct) : Prop := forall m, In m (members_of s) -> finMember s m.

Lemma finMember_union : forall s n tag len cs, finMember s (MUnion n tag len cs) ->
  finCases s tag cs /\ forall c, In c cs -> forall m, In m (ucase_members c) -> finMember s m.
Proof.
  intros s n tag len cs (A & B). split; auto. clear A. induction cs as [|[o ms] cs IH]; intros c I; [destruct I|].
  destruct B as (B & C). destruct I as [<-|I]; [|now apply IH]. cbn [ucase_members]. clear -B.
  induction ms as [|m ms IH]; intros m' I; [destruct I|]. destruct B as (B & C). destruct I as [<-|I]; auto.
Qed.
End Class.

(** All structs of a list of files. *)
Definition finFiles (r : resolver) (rank : string -> nat) (fs : list file) : Prop :=
  forall f s, In f fs -> In s (fstructs f) -> finStruct r rank s.

(* ---------- settling ---------- *)

Section Finish.
Variable grow : nat -> nat -> nat.
Variable ords : nat -> uorders.
Hypothesis Hords : forall n, goodOrders (ords n).
Variable sel : nat -> list vec -> list vec.
Variable r : resolver.
Variable rank : string -> nat.
Variable d : nat -> Z.
Hypothesis Hd : zeroAgain d.

Definition inv (g : gst) : Prop := wfg g /\ draws (rnd g) = d.
Definition good {A} (x : outcome (A * gst)) : Prop :=
  match x with Ok (_, g) => inv g | Err _ => True | _ => False end.
(** From some amount of fuel on, always the same result, not a panic. *)
Definition settle {A} (f : nat -> outcome (A * gst)) : Prop :=
  exists N x, good x /\ forall n, N <= n -> f n = x.

Lemma settle_ok : forall {A} (a : A) g, inv g -> settle (fun _ => Ok (a, g)).
Proof. intros. exists 0, (Ok (a, g)). split; auto. Qed.
Lemma settle_err : forall {A} e, settle (fun _ => @Err (A * gst) e).
Proof. intros. exists 0, (Err e). split; cbn; auto. Qed.
Lemma settle_const : forall {A} (x : outcome (A * gst)), good x -> settle (fun _ => x).
Proof. intros. exists 0, x. split; auto. Qed.
Lemma settle_ext : forall {A} (f f' : nat -> outcome (A * gst)), (forall n, f n = f' n) -> settle f' -> settle f.
Proof. intros A f f' E (N & x & G & H). exists N, x. split; auto. intros. rewrite E. auto. Qed.
Lemma settle_shift : forall {A} (f f' : nat -> outcome (A * gst)), (forall n, f (S n) = f' n) -> settle f' -> settle f.
Proof.
  intros A f f' E (N & x & G & H). exists (S N), x. split; auto. intros n L. destruct n as [|n]; [lia|]. rewrite E. apply H. lia.
Qed.
Lemma settle_bind : forall {A B} (f : nat -> outcome (A * gst)) (k : nat -> A * gst -> outcome (B * gst)),
  settle f -> (forall a g, inv g -> settle (fun n => k n (a, g))) -> settle (fun n => bind (f n) (k n)).
Proof.
  intros A B f k (N & x & G & H) K. destruct x as [[a g]|e|m|]; cbn in G; try contradiction.
  - destruct (K a g G) as (N' & y & G' & H'). exists (max N N'), y. split; auto. intros n L.
    rewrite H by lia. cbn. apply H'. lia.
  - exists N, (Err e). split; cbn; auto. intros n L. rewrite H by lia. reflexivity.
Qed.
(** A step that does not touch the state. *)
Definition calm {A} (x : outcome A) : Prop := match x with Ok _ | Err _ => True | _ => False end.
Lemma settle_calm : forall {A B} (x : outcome A) (k : nat -> A -> outcome (B * gst)),
  calm x -> (forall a, x = Ok a -> settle (fun n => k n a)) -> settle (fun n => bind x (k n)).
Proof.
  intros A B x k C K. destruct x as [a|e|m|]; cbn in C; try contradiction.
  - apply K. reflexivity.
  - apply settle_err.
Qed.

(* ---------- drawing ---------- *)

(** A set with an element and a 64-bit integer outside. *)
Definition midway (s : iset) : Prop :=
  wf_set s /\ intervals s <> [] /\ exists y, is_u64 y /\ Contains s y = false.

Lemma reject_more : forall fuel rn mask m x, rejectLoop fuel rn mask m = Ok x -> forall n, fuel <= n -> rejectLoop n rn mask m = Ok x.
Proof.
  induction fuel as [|fuel IH]; intros rn mask m x H n L; [discriminate|]. destruct n as [|n]; [lia|]. cbn [rejectLoop] in *.
  destruct (randuint64 rn) as [w rn']. destruct (Z.land w mask <? m)%Z; auto. apply IH; auto. lia.
Qed.
Lemma randuint64_draws : forall rn, draws (snd (randuint64 rn)) = draws rn.
Proof. intros [dd p]. reflexivity. Qed.
Lemma reject_draws : forall fuel rn mask m x rn', rejectLoop fuel rn mask m = Ok (x, rn') -> draws rn' = draws rn.
Proof.
  induction fuel as [|fuel IH]; intros rn mask m x rn' H; [discriminate|]. cbn [rejectLoop] in *.
  pose proof (randuint64_draws rn) as E. destruct (randuint64 rn) as [w rn1]. cbn [snd] in E.
  destruct (Z.land w mask <? m)%Z; [inversion H; subst; auto|]. rewrite <- E. eauto.
Qed.

Lemma random_settles : forall s p, midway s -> exists N x rn',
  (forall n, N <= n -> RandomWithGenerator n s (mkRng d p) = Ok (x, rn')) /\ draws rn' = d.
Proof.
  intros s p (W & NE & y & Hy & Ny). pose proof W as (V & O). pose proof (wf_card s y W Hy Ny) as HC. pose proof (card_nonneg _ V) as CN.
  assert (Cp : (0 < card (intervals s))%Z).
  { destruct (intervals s) as [|i l] eqn:E; [contradiction|]. cbn [card].
    pose proof (Forall_inv V) as Vi. pose proof (card_nonneg _ (Forall_inv_tail V)). unfold valid in Vi. lia. }
  destruct (randMask_spec (0 + card (intervals s))) as (m & M1 & M2 & M3 & M4); [lia|].
  destruct (Hd p) as (k & Hk).
  destruct (reject_hit k d p (Z.ones m) (0 + card (intervals s))) as (fuel & v & r' & E).
  { rewrite Hk. rewrite Z.land_0_l. lia. }
  destruct (steps_spec (intervals s) 0) as (st & B & P & _); auto; try lia.
  destruct (P v) as (x & X1 & _); [apply reject_sound in E; lia|].
  exists fuel, x, r'. split.
  - intros n L. rewrite random_unfold by auto. rewrite B. unfold randuint64n. rewrite M2.
    rewrite (reject_more _ _ _ _ _ E n L). cbn [bind]. rewrite X1. reflexivity.
  - apply reject_draws in E. exact E.
Qed.

Lemma settle_random : forall s g, midway s -> inv g -> settle (fun n => randomIn n s g).
Proof.
  intros s g M (Wg & Dg). destruct (random_settles s (rpos (rnd g)) M) as (N & x & rn' & E & D).
  exists N, (Ok (x, setRnd rn' g)). split.
  - split; [exact Wg|exact D].
  - intros n L. unfold randomIn. replace (rnd g) with (mkRng d (rpos (rnd g))) by (destruct (rnd g); cbn in *; congruence).
    rewrite (E n L). reflexivity.
Qed.

(* ---------- integer lists and branches ---------- *)

Lemma calm_bind : forall {A B} (x : outcome A) (k : A -> outcome B), calm x -> (forall a, x = Ok a -> calm (k a)) -> calm (bind x k).
Proof. intros A B [a|e|m|] k C K; cbn in *; auto. Qed.

Lemma list_midway : forall l s, drawable r l -> Intervals r l = Ok s -> midway s.
Proof.
  intros l s (NE & G) E. destruct (Intervals_ok r l s G E) as (W & C & N). split; [exact W|]. split; [auto|].
  exists (two64 - 1)%Z. split; [unfold is_u64, two64; lia|]. destruct (Contains s (two64 - 1)) eqn:X; auto. exfalso.
  apply C in X. destruct X as (g & a & b & I & R & L). unfold good_list in G. rewrite Forall_forall in G.
  destruct (G g I) as (a' & b' & R' & ? & ? & ?). rewrite R in R'. inversion R'; subst. unfold two63, two64 in *. lia.
Qed.
Lemma list_calm : forall l, drawable r l -> calm (Intervals r l).
Proof. intros l (NE & G). destruct (Intervals_correct r l G) as [(_ & ->)|(_ & s & -> & _)]; exact I. Qed.

Definition drawableCase (c : ucase) : Prop := match ucase_list c with Some l => drawable r l | None => True end.
Lemma drawable_good : forall c, drawableCase c -> good_case (Constant r) c.
Proof. intros c. unfold drawableCase, good_case. destruct (ucase_list c); auto. Qed.

Lemma branchLoop_calm : forall cs ds k, Forall drawableCase cs -> wf_set ds -> calm (branchLoop r cs ds k).
Proof.
  induction cs as [|c cs IH]; intros ds k F W; cbn [branchLoop]; [exact I|]. inversion F as [|? ? Fc F']; subst. unfold drawableCase in Fc.
  destruct (ucase_list c) as [l|]; [|now apply IH]. apply calm_bind; [now apply list_calm|]. intros s E. destruct Fc as (NE & G).
  destruct (Intervals_ok r l s G E) as (Ws & _ & N). destruct (subtract_correct ds s W Ws (N NE)) as (d1 & -> & W1 & _). cbn [bind].
  apply calm_bind; [now apply IH|]. intros [[bs d2] k2] _. exact I.
Qed.
Lemma branchLoop_mid : forall cs ds k bs d' k', Forall drawableCase cs -> wf_set ds -> branchLoop r cs ds k = Ok (bs, d', k') ->
  Forall (fun b => midway (bset b) /\ In (bcase b) cs) bs.
Proof.
  induction cs as [|c cs IH]; intros ds k bs d' k' F W H; cbn [branchLoop] in H; [inversion H; constructor|].
  inversion F as [|? ? Fc F']; subst. unfold drawableCase in Fc.
  assert (UP : forall bs, Forall (fun b => midway (bset b) /\ In (bcase b) cs) bs -> Forall (fun b => midway (bset b) /\ In (bcase b) (c :: cs)) bs).
  { intros l X. eapply Forall_impl; [|exact X]. cbn. intros b (A & B). auto. }
  destruct (ucase_list c) as [l|]; [|apply UP; eapply IH; eauto].
  destruct (Intervals r l) as [s| | |] eqn:E; try discriminate. cbn [bind] in H. pose proof Fc as (NE & G).
  destruct (Intervals_ok r l s G E) as (Ws & _ & N). destruct (subtract_correct ds s W Ws (N NE)) as (d1 & Es & W1 & _). rewrite Es in H.
  cbn [bind] in H. destruct (branchLoop r cs d1 k) as [[[bs1 d2] k2]| | |] eqn:EL; try discriminate. cbn [bind] in H.
  inversion H; subst. constructor.
  - cbn. split; auto. eapply list_midway; eauto.
  - apply UP. eapply IH; eauto.
Qed.

Lemma finCases_drawable : forall s tag cs sz cst, finCases r s tag cs -> IntType r tag s = Ok (sz, cst) -> Forall drawableCase cs.
Proof.
  intros s tag cs sz cst F E. destruct (F _ _ E) as (_ & A). apply Forall_forall. intros c I. specialize (A c I). unfold drawableCase.
  destruct (ucase_list c); auto.
Qed.
Lemma findIntField_calm : forall n l, calm (findIntField n l).
Proof.
  intros n. induction l as [|[fn t] l IH]; cbn [findIntField]; [exact I|]. repeat (match goal with |- context [if ?b then _ else _] => destruct b
  | |- context [match ?x with _ => _ end] => destruct x end); try exact I; exact IH.
Qed.
Lemma IntType_calm : forall tag s, calm (IntType r tag s).
Proof.
  intros. unfold IntType. destruct (String.eqb _ _); [apply findIntField_calm|]. destruct (Context r _); [apply findIntField_calm|exact I].
Qed.
Lemma NewBranches_calm : forall s tag cs, finCases r s tag cs -> calm (NewBranches r s tag cs).
Proof.
  intros s tag cs F. unfold NewBranches. apply calm_bind; [apply IntType_calm|]. intros [sz cst] E.
  pose proof (finCases_drawable _ _ _ _ _ F E) as DC. destruct (F _ _ E) as (Hs & _).
  destruct (inttype_correct sz Hs) as (d0 & -> & W0 & _). cbn [bind].
  apply calm_bind; [now apply branchLoop_calm|]. intros [[bs d2] k2] _. exact I.
Qed.
Lemma NewBranches_mid : forall s tag cs bs, finCases r s tag cs -> NewBranches r s tag cs = Ok bs ->
  Forall (fun b => midway (bset b) /\ In (bcase b) cs) bs.
Proof.
  intros s tag cs bs F H. unfold NewBranches in H. destruct (IntType r tag s) as [[sz cst]| | |] eqn:E; try discriminate. cbn [bind] in H.
  pose proof (finCases_drawable _ _ _ _ _ F E) as DC. destruct (F _ _ E) as (Hs & FC).
  destruct (inttype_correct sz Hs) as (d0 & E0 & W0 & C0). rewrite E0 in H. cbn [bind] in H.
  destruct (branchLoop r cs d0 None) as [[[bs0 d1] k]| | |] eqn:EL; try discriminate. cbn [bind] in H.
  pose proof (branchLoop_mid _ _ _ _ _ _ DC W0 EL) as M.
  assert (GC : Forall (good_case (Constant r)) cs) by (eapply Forall_impl; [|exact DC]; exact drawable_good).
  destruct (branchLoop_spec r cs d0 None bs0 d1 k GC W0 EL) as (W1 & C1 & _ & K).
  destruct k as [c|]; inversion H; subst; auto. apply Forall_app. split; auto. constructor; [|constructor]. cbn [bset bcase].
  destruct K as [(K & _)|(c' & K & I & D)]; [discriminate|]. inversion K; subst c'. split; auto.
  specialize (FC c I). rewrite D in FC. destruct FC as ((x & Hx & N) & FU). split; [exact W1|]. split.
  - assert (X : Contains d1 x = true) by (apply C1; split; auto; now apply C0). apply contains_covers in X. destruct X as (i & Ii & _).
    destruct (intervals d1); [contradiction|discriminate].
  - destruct FU as [L|(c1 & I1 & L1)].
    + exists (two64 - 1)%Z. split; [unfold is_u64, two64; lia|]. destruct (Contains d1 (two64 - 1)) eqn:X; auto. exfalso. apply C1 in X.
      destruct X as (X & _). apply C0 in X. assert (2 ^ sz <= 2 ^ 63)%Z by (apply Z.pow_le_mono_r; lia). 
      change (2 ^ 63)%Z with two63 in *. unfold two63, two64 in *. lia.
    + destruct (ucase_list c1) as [l1|] eqn:E1; [|congruence]. destruct (F _ _ E) as (_ & FC0).
      specialize (FC0 c1 I1). rewrite E1 in FC0. destruct FC0 as (NE & G). destruct l1 as [|rg l1]; [congruence|].
      inversion G as [|? ? (a & b & R & ? & ? & ?) _]; subst. exists a. split; [unfold is_u64, two63, two64 in *; lia|].
      destruct (Contains d1 a) eqn:X; auto. exfalso. apply C1 in X. destruct X as (_ & X). rewrite Forall_forall in X.
      apply (X c1 I1). exists (rg :: l1). split; auto. exists rg, a, b. split; [now left|]. split; auto. lia.
Qed.

(* ---------- the state ---------- *)

Lemma inv_same : forall g g', inv g -> maps g' = maps g -> rnd g' = rnd g -> inv g'.
Proof. intros g g' (W & D) M R. unfold inv, wfg. rewrite M, R. split; auto. Qed.
Lemma inv_setCur : forall i g, inv g -> inv (setCur i g).
Proof. intros. eapply inv_same; eauto. Qed.
Lemma inv_tick : forall g, inv g -> inv (tick g).
Proof. intros. eapply inv_same; eauto. Qed.
Lemma inv_newSlice : forall b g s g', newSlice b g = (s, g') -> inv g -> inv g'.
Proof. intros. inversion H; subst. eapply inv_same; eauto. Qed.
Lemma inv_vectorOf : forall b g v g', vectorOf b g = (v, g') -> inv g -> inv g'.
Proof. intros. unfold vectorOf, newSlice in H. inversion H; subst. eapply inv_same; eauto. Qed.
Lemma inv_emptyVec : forall g v g', emptyVec g = (v, g') -> inv g -> inv g'.
Proof. intros. eapply inv_vectorOf; eauto. Qed.
Lemma inv_appendS : forall a b g s g', appendS grow a b g = (s, g') -> inv g -> inv g'.
Proof. intros. unfold appendS in H. destruct (_ <=? _); inversion H; subst; eapply inv_same; eauto. Qed.
Lemma inv_putMap : forall i c g, inv g -> goMap c -> inv (putMap i c g).
Proof. intros i c g (W & D) G. split; [now apply putMap_wfg|exact D]. Qed.
Lemma inv_newMap : forall c g i g', newMap c g = (i, g') -> goMap c -> inv g -> inv g'.
Proof. intros c g i g' H G (W & D). inversion H; subst. split; [|exact D]. unfold wfg. cbn. apply Forall_app. split; auto. Qed.
Lemma inv_Intn : forall n g x g', Intn n g = (x, g') -> inv g -> inv g'.
Proof. intros n g x g' H (W & D). unfold Intn, draw in H. inversion H; subst. split; [exact W|exact D]. Qed.
Lemma inv_randbtw : forall a b g x g', randbtw a b g = (x, g') -> inv g -> inv g'.
Proof. intros a b g x g' H I. unfold randbtw in H. destruct (Intn (b - a + 1) g) as [y g1] eqn:E. inversion H; subst. eapply inv_Intn; eauto. Qed.
Lemma inv_randRead : forall n g bs g', randRead n g = (bs, g') -> inv g -> inv g'.
Proof.
  induction n as [|n IH]; intros g bs g' H I; cbn [randRead] in H; [inversion H; subst; auto|].
  destruct (Intn 256 g) as [y g1] eqn:E. destruct (randRead n g1) as [l g2] eqn:E2. inversion H; subst. eapply IH; eauto. eapply inv_Intn; eauto.
Qed.
Lemma inv_randLetters : forall n g bs g', randLetters n g = (bs, g') -> inv g -> inv g'.
Proof.
  induction n as [|n IH]; intros g bs g' H I; cbn [randLetters] in H; [inversion H; subst; auto|].
  destruct (Intn 26 g) as [y g1] eqn:E. destruct (randLetters n g1) as [l g2] eqn:E2. inversion H; subst. eapply IH; eauto. eapply inv_Intn; eauto.
Qed.
Lemma inv_randint : forall n g bs g', randint n g = (bs, g') -> inv g -> inv g'.
Proof. intros. eapply inv_randRead; eauto. Qed.
Lemma inv_randbytes : forall a b g bs g', randbytes a b g = (bs, g') -> inv g -> inv g'.
Proof.
  intros a b g bs g' H I. unfold randbytes in H. destruct (randbtw a b g) as [n g1] eqn:E. eapply inv_randRead; eauto. eapply inv_randbtw; eauto.
Qed.
Lemma inv_randnulterm : forall a b g bs g', randnulterm a b g = (bs, g') -> inv g -> inv g'.
Proof.
  intros a b g bs g' H I. unfold randnulterm in H. destruct (randbtw a b g) as [n g1] eqn:E.
  destruct (randLetters (Z.to_nat n) g1) as [l g2] eqn:E2. inversion H; subst. eapply inv_randLetters; eauto. eapply inv_randbtw; eauto.
Qed.
Lemma inv_select : forall vs g x g', select sel vs g = (x, g') -> inv g -> inv g'.
Proof. intros. unfold select in H. inversion H; subst. now apply inv_tick. Qed.

Lemma good_cloneMap : forall i g, inv g -> good (cloneMap ords i g).
Proof.
  intros i g (W & D). destruct (cloneMap_spec ords Hords i g W) as (j & g' & c & -> & _ & (_ & _ & _ & R) & _ & W' & _). cbn. split; congruence.
Qed.
Lemma good_cloneGlobalMap : forall i g, inv g -> good (cloneGlobalMap ords i g).
Proof.
  intros i g (W & D). destruct (cloneGlobalMap_spec ords Hords i g W) as (j & g' & c & -> & _ & (_ & _ & _ & R) & _ & W' & _). cbn. split; congruence.
Qed.
Lemma good_mergeMaps : forall i j g, inv g -> good (mergeMaps ords i j g).
Proof.
  intros i j g (W & D). unfold mergeMaps.
  destruct (merge_spec (ords (calls g)) (ords (S (calls g))) _ _ (Hords _) (Hords _) (wfg_map g i W) (wfg_map g j W)) as (_ & _ & C).
  assert (T : calm (cMerge (ords (calls g)) (ords (S (calls g))) (mapOf g i) (mapOf g j))).
  { unfold cMerge. destruct (clone_spec (ords (calls g)) (mapOf g i) (Hords _) (wfg_map g i W)) as (m & -> & _). cbn [bind].
    unfold cUpdate. destruct (cSetAll_total (cBindings (ords (S (calls g))) (mapOf g j)) m) as [(x & ->)| ->]; exact I. }
  destruct (cMerge _ _ _ _) as [c|e|e|]; cbn in T; try contradiction; cbn [bind]; [|exact I].
  destruct (newMap c (tick (tick g))) as [k g'] eqn:E. cbn. destruct (C c eq_refl) as (G & _). eapply inv_newMap; eauto. split; auto.
Qed.
Lemma good_locreate : forall i f v g, inv g -> good (lookupOrCreate i f v g).
Proof.
  intros i f v g I. destruct I as (W & D). destruct (lookupOrCreate_spec (mapOf g i) (rscope f) (rname f) v (wfg_map g i W)) as (u & c & E & G & _).
  unfold lookupOrCreate. rewrite E. cbn [bind]. apply inv_putMap; auto. split; auto.
Qed.
Lemma good_bind : forall {A B} (x : outcome (A * gst)) (k : A * gst -> outcome (B * gst)),
  good x -> (forall a g, inv g -> good (k (a, g))) -> good (bind x k).
Proof. intros A B [[a g]|e|m|] k G K; cbn in *; auto. Qed.

Lemma good_crossOne : forall u b g, inv g -> good (crossOne grow ords u b g).
Proof.
  intros u. induction b as [|w b IH]; intros g I; cbn [crossOne]; [exact I|]. apply good_bind; [now apply good_mergeMaps|]. intros m g1 I1.
  destruct (appendS grow (vdata u) (readS g1 (vdata w)) g1) as [dd g2] eqn:E. apply good_bind; [apply IH; eapply inv_appendS; eauto|]. intros q g3 I3. exact I3.
Qed.
Lemma good_cross : forall a b g, inv g -> good (cross grow ords a b g).
Proof.
  induction a as [|u a IH]; intros b g I; cbn [cross]; [exact I|]. apply good_bind; [now apply good_crossOne|]. intros p g1 I1.
  apply good_bind; [now apply IH|]. intros q g3 I3. exact I3.
Qed.
Lemma inv_prepend : forall v mvs g l g', prepend grow v mvs g = (l, g') -> inv g -> inv g'.
Proof.
  intros v. induction mvs as [|mv mvs IH]; intros g l g' H I; cbn [prepend] in H; [inversion H; subst; auto|].
  destruct (appendS grow (vdata mv) (readS g (vdata v)) g) as [dd g1] eqn:E. destruct (prepend grow v mvs g1) as [rest g2] eqn:E2.
  inversion H; subst. eapply IH; eauto. eapply inv_appendS; eauto.
Qed.
Lemma good_lenconstrain : forall f vs g, inv g -> good (lenconstrain ords f vs g).
Proof.
  intros f. induction vs as [|v vs IH]; intros g I; cbn [lenconstrain]; [exact I|]. apply good_bind; [now apply good_cloneMap|]. intros c g1 I1.
  apply good_bind; [now apply good_locreate|]. intros m g2 I2. apply good_bind; [now apply IH|]. intros q g3 I3. exact I3.
Qed.
Lemma inv_clearMap : forall i g, inv g -> inv (clearMap i g).
Proof. intros i g I. apply inv_putMap; auto. apply clearLocal_goMap, wfg_map, I. Qed.

(* ---------- the generator ---------- *)

Lemma settle_intType : forall nm sz cst g, inv g -> (forall l, cst = Some l -> drawable r l) -> settle (fun n => intType r n nm sz cst g).
Proof.
  intros nm sz cst g I D. unfold intType.
  apply (settle_bind (fun n => match cLookup (mapOf g (cur g)) "" nm with
    | Some x => Ok (intbytes x sz, g)
    | None => match cst with
        | Some l => s <- Intervals r l ;; '(x, g1) <- randomIn n s g ;; Ok (intbytes (s64 x) sz, g1)
        | None => Ok (randint sz g) end end)
    (fun _ p => let '(b, g1) := p in let '(v, g2) := vectorOf b g1 in Ok ([v], g2))).
  - destruct (cLookup _ _ _); [now apply settle_ok|]. destruct cst as [l|].
    + apply settle_calm; [apply list_calm; auto|]. intros s E.
      apply (settle_bind (fun n => randomIn n s g) (fun _ p => let '(x, g1) := p in Ok (intbytes (s64 x) sz, g1))).
      * apply settle_random; auto. eapply list_midway; eauto.
      * intros x g1 I1. now apply settle_ok.
    + destruct (randint sz g) as [b g1] eqn:E. apply settle_ok. eapply inv_randint; eauto.
  - intros b g1 I1. destruct (vectorOf b g1) as [v g2] eqn:E. apply settle_ok. eapply inv_vectorOf; eauto.
Qed.

Lemma settle_arrayLoop : forall (elem : nat -> gst -> outcome (list vec * gst)), (forall g, inv g -> settle (fun n => elem n g)) ->
  forall k v g, inv g -> settle (fun n => arrayLoop grow ords sel (elem n) k v g).
Proof.
  intros elem E. induction k as [|k IH]; intros v g I; cbn [arrayLoop]; [now apply settle_ok|].
  apply (settle_bind (fun n => elem n g) (fun n p => let '(w, g1) := p in '(v1, g2) <- cross grow ords w v g1 ;;
     let '(v2, g3) := select sel v1 g2 in arrayLoop grow ords sel (elem n) k v2 g3)); [now apply E|].
  intros w g1 I1. apply (settle_bind (fun _ => cross grow ords w v g1) (fun n p => let '(v1, g2) := p in
     let '(v2, g3) := select sel v1 g2 in arrayLoop grow ords sel (elem n) k v2 g3)); [now apply settle_const, good_cross|].
  intros v1 g2 I2. destruct (select sel v1 g2) as [v2 g3] eqn:ES. apply IH. eapply inv_select; eauto.
Qed.

Section Struct.
Variable strct : struct.
Variable callS : nat -> struct -> gst -> outcome (list vec * gst).
Hypothesis HcallS : forall s n0, StructNonExtern r n0 = Ok s -> rank (sname s) < rank (sname strct) ->
  forall g, inv g -> settle (fun n => callS n s g).

Lemma settle_field : forall t nm g, finType r rank strct t -> inv g -> settle (fun n => field grow ords sel r n (callS n) nm t g).
Proof.
  induction t as [sz cst| | | |n0|b IH i|b IH [[f|k]|]]; intros nm g F I; cbn [field].
  - apply settle_intType; auto. intros l ->. exact F.
  - apply settle_intType; auto. discriminate.
  - destruct (emptyVec g) as [v g1] eqn:E. apply settle_ok. eapply inv_emptyVec; eauto.
  - destruct (randnulterm 2 20 g) as [l g1] eqn:E. destruct (vectorOf l g1) as [v g2] eqn:E2. apply settle_ok. eapply inv_vectorOf; eauto. eapply inv_randnulterm; eauto.
  - apply (settle_calm (StructNonExtern r n0) (fun n s => callS n s g)).
    + unfold StructNonExtern. destruct (Struct r n0) as [s|]; [destruct (Extern s)|]; exact Logic.I.
    + intros s E. eapply HcallS; eauto.
  - destruct (emptyVec g) as [v g1] eqn:E.
    apply (settle_calm (Integer r i) (fun n k => arrayLoop grow ords sel (field grow ords sel r n (callS n) "" b) (Z.to_nat k) [v] g1)).
    + destruct i; cbn; [destruct (Constant r _)|]; exact Logic.I.
    + intros k _. apply (settle_arrayLoop (fun n => field grow ords sel r n (callS n) "" b)); [intros; now apply IH|]. eapply inv_emptyVec; eauto.
  - destruct (emptyVec g) as [v g1] eqn:E. destruct (randbtw 1 20 g1) as [k g2] eqn:E2.
    apply (settle_bind (fun _ => lookupOrCreate (vcons v) f k g2)
      (fun n p => let '(m, g3) := p in arrayLoop grow ords sel (field grow ords sel r n (callS n) "" b) (Z.to_nat m) [v] g3)).
    + apply settle_const, good_locreate. eapply inv_randbtw; eauto. eapply inv_emptyVec; eauto.
    + intros m g3 I3. apply (settle_arrayLoop (fun n => field grow ords sel r n (callS n) "" b)); [intros; now apply IH|]. exact I3.
  - apply settle_err.
  - destruct (emptyVec g) as [v g1] eqn:E. destruct (randbtw 1 20 g1) as [k g2] eqn:E2.
    apply (settle_arrayLoop (fun n => field grow ords sel r n (callS n) "" b)); [intros; now apply IH|]. eapply inv_randbtw; eauto. eapply inv_emptyVec; eauto.
Qed.

Lemma settle_extend : forall (mem : nat -> gst -> outcome (list vec * gst)), (forall g, inv g -> settle (fun n => mem n g)) ->
  forall vs g, inv g -> settle (fun n => extend grow (mem n) vs g).
Proof.
  intros mem M. induction vs as [|v vs IH]; intros g I; cbn [extend]; [now apply settle_ok|].
  apply (settle_bind (fun n => mem n (setCur (vcons v) g)) (fun n p => let '(mvs, g1) := p in
    let '(e, g2) := prepend grow v mvs g1 in '(rest, g3) <- extend grow (mem n) vs g2 ;; Ok (e ++ rest, g3))); [apply M; now apply inv_setCur|].
  intros mvs g1 I1. destruct (prepend grow v mvs g1) as [e g2] eqn:E.
  apply (settle_bind (fun n => extend grow (mem n) vs g2) (fun _ p => let '(rest, g3) := p in Ok (e ++ rest, g3))); [apply IH; eapply inv_prepend; eauto|].
  intros rest g3 I3. now apply settle_ok.
Qed.
Lemma settle_members : forall (mem : nat -> member -> gst -> outcome (list vec * gst)) ms,
  (forall m, In m ms -> forall g, inv g -> settle (fun n => mem n m g)) ->
  forall vs g, inv g -> settle (fun n => membersLoop grow sel (mem n) ms vs g).
Proof.
  intros mem. induction ms as [|m ms IH]; intros M vs g I; cbn [membersLoop]; [now apply settle_ok|].
  apply (settle_bind (fun n => membersLoop grow sel (mem n) ms vs g) (fun n p => let '(vs1, g1) := p in
    '(ext, g2) <- extend grow (mem n m) vs1 g1 ;; Ok (select sel ext g2))); [apply IH; auto; intros; apply M; cbn; auto|].
  intros vs1 g1 I1. apply (settle_bind (fun n => extend grow (mem n m) vs1 g1) (fun _ p => let '(ext, g2) := p in Ok (select sel ext g2))).
  - apply (settle_extend (fun n => mem n m)); auto. apply M. now left.
  - intros ext g2 I2. destruct (select sel ext g2) as [x g3] eqn:E. apply settle_ok. eapply inv_select; eauto.
Qed.

Lemma settle_unionLoop : forall (gen : nat -> ucase -> list vec -> gst -> outcome (list vec * gst)) tag base bs,
  (forall b, In b bs -> midway (bset b) /\ forall vs g, inv g -> settle (fun n => gen n (bcase b) vs g)) ->
  forall g, inv g -> settle (fun n => unionLoop ords n (gen n) tag base bs g).
Proof.
  intros gen tag base. induction bs as [|b bs IH]; intros B g I; cbn [unionLoop]; [now apply settle_ok|].
  destruct (B b) as (Mb & Gb); [now left|].
  eapply (settle_bind (fun _ => cloneMap ords base g)); [now apply settle_const, good_cloneMap|]. intros c g1 I1. cbn beta iota.
  eapply (settle_bind (fun n => randomIn n (bset b) (setCur c g1))); [apply settle_random; auto; now apply inv_setCur|]. intros x g3 I3. cbn beta iota.
  eapply (settle_bind (fun _ => lookupOrCreate (cur g3) tag (s64 x) g3)); [now apply settle_const, good_locreate|]. intros u g4 I4. cbn beta iota.
  destruct (emptyVec g4) as [ev g5] eqn:E5. assert (I5 : inv g5) by (eapply inv_emptyVec; eauto).
  eapply (settle_bind (fun n => gen n (bcase b) [ev] g5)); [now apply Gb|]. intros vs g6 I6. cbn beta iota.
  eapply (settle_bind (fun n => unionLoop ords n (gen n) tag base bs g6)); [apply IH; auto; intros; apply B; now right|]. intros rest g7 I7.
  now apply settle_ok.
Qed.

Lemma find_In : forall {A} (p : A -> bool) l x, find p l = Some x -> In x l.
Proof. intros. apply find_some in H. apply H. Qed.

Lemma settle_gmember : forall (gen : nat -> ucase -> list vec -> gst -> outcome (list vec * gst)) m,
  finMember r rank strct m ->
  (forall c, (exists nm tag len cs, m = MUnion nm tag len cs /\ In c cs) -> forall vs g, inv g -> settle (fun n => gen n c vs g)) ->
  forall g, inv g -> settle (fun n => gmember grow ords sel r n (callS n) strct (gen n) m g).
Proof.
  intros gen m F G g I. destruct m as [nm t|nm tag len cs| | |]; cbn [gmember].
  - now apply settle_field.
  - destruct (finMember_union _ _ _ _ _ _ _ F) as (FC & FM).
    eapply (settle_calm (NewBranches r strct tag cs)); [now apply NewBranches_calm|]. intros bs E. cbn beta.
    pose proof (NewBranches_mid _ _ _ _ FC E) as M. rewrite Forall_forall in M.
    destruct (unionOptions bs _) as [opts|] eqn:EO; [|now apply settle_ok].
    assert (S : forall b, In b opts -> In b bs).
    { unfold unionOptions in EO. destruct (cLookupRef _ _) as [x|]; [|inversion EO; auto].
      destruct (Lookup bs x) as [b0|] eqn:EL; [|discriminate]. inversion EO; subst. intros b [<-|[]]. unfold Lookup in EL. eapply find_In; eauto. }
    eapply (settle_bind (fun _ => cloneMap ords (cur g) g)); [now apply settle_const, good_cloneMap|]. intros base g1 I1. cbn beta iota.
    eapply (settle_bind (fun n => unionLoop ords n (gen n) tag base opts g1)).
    + apply settle_unionLoop; auto. intros b Ib. destruct (M b (S b Ib)) as (Mb & Cb). split; auto. apply G.
      exists nm, tag, len, cs. auto.
    + intros results g2 I2. cbn beta iota. destruct len as [[f|k]|]; [apply settle_const, good_lenconstrain; auto|apply settle_err|now apply settle_ok].
  - destruct (emptyVec g) as [v g1] eqn:E. apply settle_ok. eapply inv_emptyVec; eauto.
  - now apply settle_ok.
  - destruct (emptyVec g) as [a g1] eqn:E. destruct (randbytes 1 7 g1) as [b g2] eqn:E2. destruct (vectorOf b g2) as [v g3] eqn:E3.
    apply settle_ok. eapply inv_vectorOf; eauto. eapply inv_randbytes; eauto. eapply inv_emptyVec; eauto.
Qed.
End Struct.

Hypothesis Hall : forall n s, StructNonExtern r n = Ok s -> finStruct r rank s.

Lemma settle_gmembers : forall strct,
  (forall s n0, StructNonExtern r n0 = Ok s -> rank (sname s) < rank (sname strct) -> forall g, inv g -> settle (fun n => structure grow ords sel r n s g)) ->
  forall ms, (forall m, In m ms -> finMember r rank strct m) -> forall vs g, inv g -> settle (fun n => gmembers grow ords sel r n strct ms vs g).
Proof.
  intros strct HS.
  assert (ONE : forall m, finMember r rank strct m -> forall g, inv g ->
    settle (fun n => gmember grow ords sel r n (structureWith ords (gmembers grow ords sel r n)) strct
                       (fun c => gmembers grow ords sel r n strct (ucase_members c)) m g)).
  { apply (member_ind' (fun m => finMember r rank strct m -> forall g, inv g ->
      settle (fun n => gmember grow ords sel r n (structureWith ords (gmembers grow ords sel r n)) strct
                       (fun c => gmembers grow ords sel r n strct (ucase_members c)) m g))).
    - intros nm t F g I. apply (settle_gmember strct (fun n => structureWith ords (gmembers grow ords sel r n)) HS
        (fun n c => gmembers grow ords sel r n strct (ucase_members c))); auto. intros c (? & ? & ? & ? & ? & _). discriminate.
    - intros nm tag len cs IH F g I. apply (settle_gmember strct (fun n => structureWith ords (gmembers grow ords sel r n)) HS
        (fun n c => gmembers grow ords sel r n strct (ucase_members c))); auto.
      intros c (nm' & tag' & len' & cs' & E & Ic) vs h Ih. inversion E; subst. destruct (finMember_union _ _ _ _ _ _ _ F) as (_ & FM).
      eapply settle_shift; [intros n; cbn [gmembers]; reflexivity|].
      apply (settle_members (fun n => gmember grow ords sel r n (structureWith ords (gmembers grow ords sel r n)) strct
                       (fun c => gmembers grow ords sel r n strct (ucase_members c)))); auto.
      intros m Im h' Ih'. rewrite Forall_forall in IH. specialize (IH c Ic). rewrite Forall_forall in IH. apply IH; auto. eapply FM; eauto.
    - intros F g I. cbn [gmember]. destruct (emptyVec g) as [v g1] eqn:E. apply settle_ok. eapply inv_emptyVec; eauto.
    - intros F g I. now apply settle_ok.
    - intros F g I. apply (settle_gmember strct (fun n => structureWith ords (gmembers grow ords sel r n)) HS
        (fun n c => gmembers grow ords sel r n strct (ucase_members c))); auto. intros c (? & ? & ? & ? & ? & _). discriminate. }
  intros ms F vs g I. eapply settle_shift; [intros n; cbn [gmembers]; reflexivity|].
  apply (settle_members (fun n => gmember grow ords sel r n (structureWith ords (gmembers grow ords sel r n)) strct
                       (fun c => gmembers grow ords sel r n strct (ucase_members c)))); auto.
Qed.

Lemma inv_fold_clear : forall vs g, inv g -> inv (fold_left (fun g v => clearMap (vcons v) g) vs g).
Proof. induction vs as [|v vs IH]; intros g I; cbn; auto. apply IH. now apply inv_clearMap. Qed.

Lemma settle_structure : forall k s, rank (sname s) < k -> finStruct r rank s -> forall g, inv g -> settle (fun n => structure grow ords sel r n s g).
Proof.
  induction k as [|k IH]; intros s L F g I; [lia|]. unfold structure, structureWith.
  eapply (settle_bind (fun _ => cloneGlobalMap ords (cur g) g)); [now apply settle_const, good_cloneGlobalMap|]. intros c g1 I1. cbn beta iota.
  destruct (newSlice [] g1) as [dd g2] eqn:E. assert (I2 : inv g2) by (eapply inv_newSlice; eauto).
  eapply (settle_bind (fun n => gmembers grow ords sel r n s (members_of s) [mkVec dd c] g2)).
  - apply settle_gmembers; auto. intros s' n0 ES LT h Ih. apply IH; auto; [lia|]. eapply Hall; eauto.
  - intros vs g3 I3. cbn beta iota. apply settle_ok. apply inv_fold_clear. now apply inv_clearMap.
Qed.

Lemma settle_suites : forall ss, (forall s, In s ss -> finStruct r rank s) -> forall g, inv g -> settle (fun n => suites grow ords sel r n ss g).
Proof.
  induction ss as [|s ss IH]; intros F g I; cbn [suites]; [now apply settle_ok|].
  assert (F' : forall s, In s ss -> finStruct r rank s) by (intros; apply F; now right).
  destruct (Extern s); [now apply IH|]. destruct (newMap NewConstraints g) as [c g1] eqn:E.
  assert (I1 : inv g1) by (eapply inv_newMap; eauto; apply goMap_new).
  eapply (settle_bind (fun n => structure grow ords sel r n s (setCur c g1))).
  - eapply settle_structure; [apply Nat.lt_succ_diag_r| |now apply inv_setCur]. apply F. now left.
  - intros vs g2 I2. cbn beta iota. eapply (settle_bind (fun n => suites grow ords sel r n ss g2)); [now apply IH|].
    intros rest g3 I3. now apply settle_ok.
Qed.
End Finish.

(** The generator returns: from some amount of fuel on the result is always the
    same, and it is a corpus or an error. *)
Theorem files_finish : forall grow ords sel os fs rn r rank, (forall k, goodOrders (ords k)) -> all_valid os ->
  NewResolverFiles os fs = Ok r -> finFiles r rank fs -> zeroAgain (draws rn) ->
  exists N x, (forall n, N <= n -> GenerateFiles grow ords sel os n fs rn = x) /\ ((exists c, x = Ok c) \/ exists e, x = Err e).
Proof.
  intros grow ords sel os fs rn r rank HO V ER FF Z.
  assert (HA : forall n s, StructNonExtern r n = Ok s -> finStruct r rank s).
  { intros n s H. unfold StructNonExtern in H. destruct (Struct r n) as [s'|] eqn:ES; [|discriminate]. destruct (Extern s') eqn:EX; [discriminate|].
    inversion H; subst s'. unfold NewResolverFiles in ER. destruct (addFiles_answers _ _ _ _ _ V ER) as (A & _). apply A in ES; auto.
    destruct ES as [ES|(f & If & Is & _)]; [discriminate|]. eapply FF; eauto. }
  destruct (settle_suites grow ords HO sel r rank (draws rn) Z HA (flat_map fstructs fs)) with (g := mkG [] O [] rn O) as (N & x & G & H).
  - intros s Is. apply in_flat_map in Is. destruct Is as (f & If & Is). eapply FF; eauto.
  - split; [constructor|reflexivity].
  - exists N. destruct x as [[ss g]|e|m|]; cbn in G; try contradiction.
    + eexists. split; [|left; eauto]. intros n L. unfold GenerateFiles. rewrite ER. cbn [bind]. rewrite (H n L). cbn [bind]. reflexivity.
    + exists (Err e). split; [|right; eauto]. intros n L. unfold GenerateFiles. rewrite ER. cbn [bind]. rewrite (H n L). reflexivity.
Qed.
