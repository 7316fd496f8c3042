(** When test vectors do not share memory: if the elements of arrays have at most
    one vector, the spare room that [append] leaves has no effect. *)
From Coq Require Import ZArith String List Bool Lia Arith Permutation.
From Verif Require Import Base Ast IntervalsModel InspectModel InspectSpec InspectProofs ResDet GenModel TvModel TvConstraints TvHeap.
Import ListNotations.
Open Scope string_scope.
Open Scope list_scope.
Open Scope nat_scope.

(** * Statement *)

(** A selector that picks positions, each at most once, by the number of the call
    and the number of vectors only; both selectors of the package are such. *)
Definition positions (sel : nat -> list vec -> list vec) (ps : nat -> nat -> list nat) : Prop :=
  forall k m, NoDup (ps k m) /\ Forall (fun i => i < m) (ps k m) /\
  forall vs d, List.length vs = m -> sel k vs = map (fun i => nth i vs d) (ps k m).

Section Class.
(** Structs with at most one vector. *)
Variable sg : string -> bool.
Fixpoint singleT (t : type) : bool :=
  match t with TStruct n => sg n | TFixed b _ | TVar b _ => singleT b | _ => true end.
Definition singleM (m : member) : bool :=
  match m with MField _ t => singleT t | MUnion _ _ _ _ | MIgnore => false | _ => true end.
(** Elements of arrays have at most one vector. *)
Definition aloneT (t : type) : bool := match t with TFixed b _ | TVar b _ => singleT b | _ => true end.
Fixpoint aloneM (m : member) : bool :=
  match m with
  | MField _ t => aloneT t
  | MUnion _ _ _ cs => forallb (fun c => match c with UCase _ ms => forallb aloneM ms end) cs
  | _ => true
  end.
Definition aloneS (s : struct) : bool :=
  forallb aloneM (members_of s) && (negb (sg (sname s)) || forallb singleM (members_of s)).
Definition aloneFiles (fs : list file) : bool := forallb aloneS (definedStructs fs).
End Class.

(** * Lists *)
Lemma picks_rest : forall m ps, NoDup ps -> Forall (fun i => i < m) ps -> exists rest, Permutation (ps ++ rest) (seq 0 m).
Proof.
  intros m ps N F. exists (filter (fun i => negb (existsb (Nat.eqb i) ps)) (seq 0 m)).
  assert (EX : forall i, existsb (Nat.eqb i) ps = true <-> In i ps).
  { intros i. rewrite existsb_exists. split; [intros (j & J & E); apply Nat.eqb_eq in E; now subst|]. intros I. exists i. split; auto. apply Nat.eqb_refl. }
  apply NoDup_Permutation.
  - clear F. assert (D : forall i, In i ps -> ~ In i (filter (fun i => negb (existsb (Nat.eqb i) ps)) (seq 0 m))).
    { intros i I J. apply filter_In in J as (_ & J). apply EX in I. now rewrite I in J. }
    assert (NF : NoDup (filter (fun i => negb (existsb (Nat.eqb i) ps)) (seq 0 m))) by (apply NoDup_filter, seq_NoDup).
    revert D NF. generalize (filter (fun i => negb (existsb (Nat.eqb i) ps)) (seq 0 m)). clear EX. induction N as [|x l X N IH]; intros q D NF; auto.
    cbn. constructor; [|apply IH; auto; intros; apply D; now right]. rewrite in_app_iff. intros [Y|Y]; auto. apply (D x); auto. now left.
  - apply seq_NoDup.
  - intros i. rewrite in_app_iff, filter_In, in_seq. rewrite Forall_forall in F. split.
    + intros [I|(I & _)]; [specialize (F _ I); lia|lia].
    + intros I. destruct (existsb (Nat.eqb i) ps) eqn:E; [left; now apply EX|right; split; [lia|reflexivity]].
Qed.
Lemma map_nth_seq : forall {A} (l : list A) d, map (fun i => nth i l d) (seq 0 (List.length l)) = l.
Proof.
  intros A l d. induction l as [|x l IH]; auto. cbn [List.length seq map nth]. f_equal. rewrite <- seq_shift, map_map. exact IH.
Qed.
Lemma positions_rest : forall sel ps, positions sel ps -> forall k vs, exists rest, Permutation (sel k vs ++ rest) vs.
Proof.
  intros sel ps P k vs. destruct (P k (List.length vs)) as (N & F & E). destruct (picks_rest _ _ N F) as (rest & Q).
  set (d := mkVec (mkSlice 0 0) 0). rewrite (E vs d eq_refl). exists (map (fun i => nth i vs d) rest). rewrite <- map_app.
  apply (Permutation_map (fun i => nth i vs d)) in Q. rewrite map_nth_seq in Q. exact Q.
Qed.
Lemma positions_forall2 : forall sel ps, positions sel ps -> forall (R : vec -> vec -> Prop) k vs ws, Forall2 R vs ws -> Forall2 R (sel k vs) (sel k ws).
Proof.
  intros sel ps P R k vs ws H. destruct (P k (List.length vs)) as (N & F & E). set (d := mkVec (mkSlice 0 0) 0).
  assert (L : List.length vs = List.length ws) by (clear -H; induction H; cbn; auto).
  rewrite (E vs d eq_refl), (E ws d (eq_sym L)). clear N E. induction F as [|i l I F IH]; cbn [map]; constructor; auto.
  revert i I. clear -H. induction H as [|x y vs ws X H IH]; intros i I; [cbn in I; lia|]. destruct i; cbn; auto. apply IH. cbn in I. lia.
Qed.

(** * Two runs *)
Notation nbufs g := (List.length (bufs g)).
Record sim (g g' : gst) : Prop := { sim_maps : maps g = maps g'; sim_cur : cur g = cur g'; sim_rnd : rnd g = rnd g'; sim_calls : calls g = calls g' }.
Definition sameVec (g g' : gst) (v v' : vec) : Prop := vcons v = vcons v' /\ readS g (vdata v) = readS g' (vdata v').
(** Vectors in arrays no older than [b], that can be extended without harm to each
    other. *)
Definition live (b : nat) (g : gst) (vs : list vec) : Prop :=
  Forall (fun v => okS g (vdata v) /\ b <= sbuf (vdata v)) vs /\ safe g (map vdata vs).
Record two (b b' : nat) (g g' : gst) (vs vs' : list vec) (h h' : gst) : Prop := {
  two_sim : sim h h';
  two_keep : keepB (nbufs g) g h;
  two_keep' : keepB (nbufs g') g' h';
  two_live : live b h vs;
  two_live' : live b' h' vs';
  two_same : Forall2 (sameVec h h') vs vs' }.
Definition twoOut (P : nat -> Prop) (b b' : nat) (g g' : gst) (x y : list vec * gst) : Prop :=
  two b b' g g' (fst x) (fst y) (snd x) (snd y) /\ P (List.length (fst x)).
Definition alike (single : Prop) (f f' : gst -> outcome (list vec * gst)) : Prop :=
  forall g g', sim g g' -> sameOut (twoOut (fun n => single -> n <= 1) (nbufs g) (nbufs g') g g') (f g) (f' g').

Lemma bind_out : forall {A B} (R : A -> A -> Prop) (Q : B -> B -> Prop) x y f g, sameOut R x y -> (forall a b, R a b -> sameOut Q (f a) (g b)) ->
  sameOut Q (bind x f) (bind y g).
Proof. intros A B R Q [a|e|m|] [b|e'|m'|] f g H K; cbn in *; try contradiction; auto. Qed.
Lemma bind_same : forall {A B} (Q : B -> B -> Prop) (x : outcome A) f g, (forall a, x = Ok a -> sameOut Q (f a) (g a)) -> sameOut Q (bind x f) (bind x g).
Proof. intros A B Q [a|e|m|] f g K; cbn; auto. Qed.
Lemma out_weak : forall {A} (R Q : A -> A -> Prop) x y, (forall a b, R a b -> Q a b) -> sameOut R x y -> sameOut Q x y.
Proof. intros A R Q [a|e|m|] [b|e'|m'|] H K; cbn in *; auto. Qed.

Lemma keep_refl : forall b g, keepB b g g.
Proof. split; auto. Qed.
Lemma keep_trans : forall a b g1 g2 g3, a <= b -> keepB a g1 g2 -> keepB b g2 g3 -> keepB a g1 g3.
Proof. intros a b g1 g2 g3 L (A & B) (C & D). split; [lia|]. intros i I. rewrite D by lia. apply B. auto. Qed.
Lemma keep_bufs : forall b g h k, bufs k = bufs h -> keepB b g h -> keepB b g k.
Proof. intros b g h k E (A & B). split; rewrite E; auto. Qed.
Lemma keep_from : forall b g k h, bufs k = bufs g -> keepB b k h -> keepB b g h.
Proof. intros b g k h E (A & B). split; rewrite <- E; auto. Qed.
Lemma keep_slice : forall g h s, keepB (nbufs g) g h -> okS g s -> okS h s /\ readS h s = readS g s /\ capOf h s = capOf g s.
Proof. intros g h s (L & K) (O1 & O2). unfold okS, readS, capOf in *. rewrite K by auto. repeat split; auto. lia. Qed.
Lemma live_keep : forall b g h vs, keepB (nbufs g) g h -> live b g vs -> live b h vs.
Proof.
  intros b g h vs K (F & S). split.
  - eapply Forall_impl; [|exact F]. intros v (O & L). split; auto. now apply (keep_slice g).
  - eapply safe_ext; [|exact S]. intros s I. apply in_map_iff in I as (v & <- & I). rewrite Forall_forall in F. apply (keep_slice g); auto. now apply F.
Qed.
Lemma live_weak : forall b c g vs, c <= b -> live b g vs -> live c g vs.
Proof. intros b c g vs L (F & S). split; auto. eapply Forall_impl; [|exact F]. intros v (O & M). split; auto. lia. Qed.
Lemma live_app : forall b g vs ws, live b g vs -> live b g ws -> (forall v w, In v vs -> In w ws -> sbuf (vdata v) <> sbuf (vdata w)) -> live b g (vs ++ ws).
Proof.
  intros b g vs ws (F1 & S1) (F2 & S2) D. split; [apply Forall_app; auto|]. rewrite map_app. apply safe_app. split; auto. split; auto.
  apply Forall_forall. intros s I. apply Forall_forall. intros t J E. apply in_map_iff in I as (v & <- & I). apply in_map_iff in J as (w & <- & J).
  exfalso. now apply (D v w).
Qed.
(** Later vectors are in newer arrays. *)
Lemma live_join : forall b g h vs ws, b <= nbufs g -> keepB (nbufs g) g h -> live b g vs -> live (nbufs g) h ws -> live b h (vs ++ ws).
Proof.
  intros b g h vs ws L K V W. apply live_app; [eapply live_keep; eauto|eapply live_weak; eauto|].
  intros v w I J. destruct V as (F & _), W as (G & _). rewrite Forall_forall in F, G. destruct (F _ I) as ((O & _) & _). destruct (G _ J) as (_ & M). lia.
Qed.
Lemma same_keep : forall g g' h h' vs vs', keepB (nbufs g) g h -> keepB (nbufs g') g' h' -> Forall (fun v => okS g (vdata v)) vs -> Forall (fun v => okS g' (vdata v)) vs' ->
  Forall2 (sameVec g g') vs vs' -> Forall2 (sameVec h h') vs vs'.
Proof.
  intros g g' h h' vs vs' K K' F F' S. revert F F'. induction S as [|v v' vs vs' (C & D) S IH]; intros F F'; constructor; inversion F; inversion F'; subst; auto.
  split; auto. destruct (keep_slice _ _ _ K H1) as (_ & -> & _). destruct (keep_slice _ _ _ K' H5) as (_ & -> & _). auto.
Qed.
Lemma live_ok : forall b g vs, live b g vs -> Forall (fun v => okS g (vdata v)) vs.
Proof. intros b g vs (F & _). eapply Forall_impl; [|exact F]. now intros v (O & _). Qed.

(** One after the other. *)
Lemma two_join : forall b b' g g' vs vs' h h' ws ws' k k', b <= nbufs h -> b' <= nbufs h' ->
  two b b' g g' vs vs' h h' -> two (nbufs h) (nbufs h') h h' ws ws' k k' -> two b b' g g' (vs ++ ws) (vs' ++ ws') k k'.
Proof.
  intros b b' g g' vs vs' h h' ws ws' k k' L L' [A1 A2 A3 A4 A5 A6] [B1 B2 B3 B4 B5 B6]. constructor; auto.
  - apply (keep_trans _ (nbufs h) g h k); auto. apply A2.
  - apply (keep_trans _ (nbufs h') g' h' k'); auto. apply A3.
  - eapply live_join; eauto.
  - eapply live_join; eauto.
  - apply Forall2_app; auto. eapply same_keep; eauto; eapply live_ok; eauto.
Qed.
Lemma live_bufs : forall b g h vs, bufs h = bufs g -> live b g vs -> live b h vs.
Proof.
  intros b g h vs E (F & S). assert (C : forall s, capOf h s = capOf g s) by (intros; unfold capOf; now rewrite E). split.
  - eapply Forall_impl; [|exact F]. intros v ((O1 & O2) & L). split; auto. split; [now rewrite E|now rewrite C].
  - eapply safe_ext; [|exact S]. auto.
Qed.
(** Only maps, random source and counters change. *)
Lemma two_bufs : forall b b' g g' vs vs' h h' k k', bufs k = bufs h -> bufs k' = bufs h' -> sim k k' ->
  two b b' g g' vs vs' h h' -> two b b' g g' vs vs' k k'.
Proof.
  intros b b' g g' vs vs' h h' k k' E E' S [A1 A2 A3 A4 A5 A6]. constructor; auto.
  - eapply keep_bufs; eauto.
  - eapply keep_bufs; eauto.
  - eapply live_bufs; eauto.
  - eapply live_bufs; eauto.
  - clear -A6 E E'. induction A6 as [|v v' vs vs' (C & D) A6 IH]; constructor; auto. split; auto. unfold readS. rewrite E, E'. exact D.
Qed.
Lemma two_from : forall b b' g g' vs vs' h h' f f', bufs g = bufs f -> bufs g' = bufs f' ->
  two b b' g g' vs vs' h h' -> two b b' f f' vs vs' h h'.
Proof.
  intros b b' g g' vs vs' h h' f f' E E' [A1 A2 A3 A4 A5 A6]. constructor; auto.
  - apply (keep_from _ f g h); auto. now rewrite <- E.
  - apply (keep_from _ f' g' h'); auto. now rewrite <- E'.
Qed.
Lemma two_weak : forall b b' c c' g g' vs vs' h h', c <= b -> c' <= b' -> two b b' g g' vs vs' h h' -> two c c' g g' vs vs' h h'.
Proof. intros b b' c c' g g' vs vs' h h' L L' [A1 A2 A3 A4 A5 A6]. constructor; auto; eapply live_weak; eauto. Qed.
Lemma two_nil : forall b b' g g' h h', sim h h' -> bufs h = bufs g -> bufs h' = bufs g' -> two b b' g g' [] [] h h'.
Proof.
  intros b b' g g' h h' S E E'. constructor; auto; try (split; cbn; auto).
  - now rewrite E.
  - now rewrite E.
  - now rewrite E'.
  - now rewrite E'.
Qed.

Lemma newSlice_two : forall bs g g' s s' h h', sim g g' -> newSlice bs g = (s, h) -> newSlice bs g' = (s', h') ->
  sim h h' /\ (forall i, two (nbufs g) (nbufs g') g g' [mkVec s i] [mkVec s' i] h h') /\ nbufs h = S (nbufs g) /\ nbufs h' = S (nbufs g').
Proof.
  intros bs g g' s s' h h' [M C R K] H H'. unfold newSlice in *. inversion H; inversion H'; subst; clear H H'.
  assert (SI : sim (mkG (maps g) (cur g) (bufs g ++ [bs]) (rnd g) (calls g)) (mkG (maps g') (cur g') (bufs g' ++ [bs]) (rnd g') (calls g'))) by (constructor; auto).
  assert (KB : forall g : gst, keepB (nbufs g) g (mkG (maps g) (cur g) (bufs g ++ [bs]) (rnd g) (calls g))).
  { intros q. split; cbn [bufs]; [rewrite app_length; lia|]. intros i Li. now apply app_nth1. }
  assert (LV : forall (g : gst) i, live (nbufs g) (mkG (maps g) (cur g) (bufs g ++ [bs]) (rnd g) (calls g)) [mkVec (mkSlice (nbufs g) (List.length bs)) i]).
  { intros q i. split; [|cbn; auto]. constructor; [|constructor]. cbn [vdata sbuf]. split; auto. split; cbn [sbuf slen bufs]; [rewrite app_length; cbn; lia|].
    unfold capOf. cbn [sbuf bufs]. rewrite app_nth2, Nat.sub_diag by lia. cbn. lia. }
  split; auto. split.
  - intros i. constructor; auto. constructor; [|constructor]. split; auto. unfold readS. cbn [vdata sbuf slen bufs].
    rewrite !app_nth2, !Nat.sub_diag by lia. reflexivity.
  - cbn [bufs]. rewrite !app_length. cbn. lia.
Qed.
Lemma vectorOf_two : forall bs g g' v v' h h', sim g g' -> vectorOf bs g = (v, h) -> vectorOf bs g' = (v', h') ->
  two (nbufs g) (nbufs g') g g' [v] [v'] h h' /\ vcons v = vcons v' /\ nbufs h = S (nbufs g) /\ nbufs h' = S (nbufs g').
Proof.
  intros bs g g' v v' h h' S H H'. unfold vectorOf in *. destruct (newSlice bs g) as [s k] eqn:E. destruct (newSlice bs g') as [s' k'] eqn:E'.
  inversion H; inversion H'; subst; clear H H'. destruct (newSlice_two _ _ _ _ _ _ _ S E E') as (A & B & C & D). rewrite (sim_cur _ _ A). split; auto.
Qed.

(** * The random source: equal draws, same arrays *)
Definition pure {A} (f : gst -> A * gst) : Prop := forall g g', sim g g' -> fst (f g) = fst (f g') /\ sim (snd (f g)) (snd (f g')) /\ bufs (snd (f g)) = bufs g /\ bufs (snd (f g')) = bufs g'.
Lemma setRnd_sim : forall rn g g', sim g g' -> sim (setRnd rn g) (setRnd rn g').
Proof. intros rn g g' [M C R K]. constructor; auto. Qed.
Lemma setCur_sim : forall i g g', sim g g' -> sim (setCur i g) (setCur i g').
Proof. intros i g g' [M C R K]. constructor; auto. Qed.
Lemma tick_sim : forall g g', sim g g' -> sim (tick g) (tick g').
Proof. intros g g' [M C R K]. constructor; auto. cbn. now rewrite K. Qed.
Lemma Intn_pure : forall n, pure (Intn n).
Proof. intros n g g' S. unfold Intn, draw. rewrite <- (sim_rnd _ _ S). split; auto. split; [|auto]. now apply setRnd_sim. Qed.
Lemma pure_then : forall {A B C} (f : gst -> A * gst) (k : A -> gst -> B * gst) (q : A -> B -> C), pure f -> (forall a, pure (k a)) ->
  pure (fun g => let '(a, g1) := f g in let '(b, g2) := k a g1 in (q a b, g2)).
Proof.
  intros A B C f k q F K g g' S. destruct (F g g' S) as (E & S1 & B1 & B1'). destruct (f g) as [a h], (f g') as [a' h']. cbn [fst snd] in *. subst a'.
  destruct (K a h h' S1) as (E2 & S2 & B2 & B2'). destruct (k a h) as [b i], (k a h') as [b' i']. cbn [fst snd] in *. subst b'. split; auto. split; auto. split; congruence.
Qed.
Lemma pure_ret : forall {A} (a : A), pure (fun g => (a, g)).
Proof. intros A a g g' S. auto. Qed.
Lemma randRead_pure : forall n, pure (randRead n).
Proof. induction n as [|n IH]; [apply pure_ret|]. exact (pure_then (Intn 256) (fun _ => randRead n) (fun b bs => (b :: bs)) (Intn_pure _) (fun _ => IH)). Qed.
Lemma randLetters_pure : forall n, pure (randLetters n).
Proof. induction n as [|n IH]; [apply pure_ret|]. exact (pure_then (Intn 26) (fun _ => randLetters n) (fun d bs => ((97 + d)%Z :: bs)) (Intn_pure _) (fun _ => IH)). Qed.
Lemma randbtw_pure : forall a b, pure (randbtw a b).
Proof. intros a b. exact (pure_then (Intn (b - a + 1)) (fun d g => (a + d, g)%Z) (fun _ x => x) (Intn_pure _) (fun d => pure_ret _)). Qed.
Lemma pure_let : forall {A B} (f : gst -> A * gst) (k : A -> gst -> B * gst), pure f -> (forall a, pure (k a)) -> pure (fun g => let '(a, g1) := f g in k a g1).
Proof.
  intros A B f k F K g g' S. destruct (F g g' S) as (E & S1 & B1 & B1'). destruct (f g) as [a h], (f g') as [a' h']. cbn [fst snd] in *. subst a'.
  destruct (K a h h' S1) as (E2 & S2 & B2 & B2'). split; auto. split; auto. split; congruence.
Qed.
Lemma randbytes_pure : forall a b, pure (randbytes a b).
Proof. intros a b. apply (pure_let (randbtw a b) (fun n => randRead (Z.to_nat n))); [apply randbtw_pure|intros; apply randRead_pure]. Qed.
Lemma randnulterm_pure : forall a b, pure (randnulterm a b).
Proof.
  intros a b. apply (pure_let (randbtw a b) (fun n g1 => let '(s, g2) := randLetters (Z.to_nat n) g1 in ((s ++ [0])%Z, g2))); [apply randbtw_pure|].
  intros n. apply (pure_let (randLetters (Z.to_nat n)) (fun s g => (s ++ [0%Z], g))); [apply randLetters_pure|]. intros s. apply pure_ret.
Qed.

(** Steps on maps and the random source only. *)
Definition quiet {A} (f : gst -> outcome (A * gst)) : Prop :=
  forall g g', sim g g' -> sameOut (fun x y => fst x = fst y /\ sim (snd x) (snd y) /\ bufs (snd x) = bufs g /\ bufs (snd y) = bufs g') (f g) (f g').
Lemma mapOf_sim : forall g g' i, sim g g' -> mapOf g i = mapOf g' i.
Proof. intros g g' i S. unfold mapOf. now rewrite (sim_maps _ _ S). Qed.
Lemma randomIn_quiet : forall fuel s, quiet (randomIn fuel s).
Proof.
  intros fuel s g g' S. unfold randomIn. rewrite <- (sim_rnd _ _ S). apply bind_same. intros [x rn] _. cbn. split; auto. split; [now apply setRnd_sim|auto].
Qed.
Lemma newMap_sim : forall c g g', sim g g' -> fst (newMap c g) = fst (newMap c g') /\ sim (snd (newMap c g)) (snd (newMap c g')) /\ bufs (snd (newMap c g)) = bufs g /\ bufs (snd (newMap c g')) = bufs g'.
Proof. intros c g g' [M C R K]. unfold newMap. cbn [fst snd bufs]. rewrite M. split; auto. split; auto. constructor; cbn; congruence. Qed.
Lemma putMap_sim : forall i c g g', sim g g' -> sim (putMap i c g) (putMap i c g').
Proof. intros i c g g' [M C R K]. constructor; cbn; auto. now rewrite M. Qed.
Section Ords.
Variable ords : nat -> uorders.
Lemma cloneMap_quiet : forall i, quiet (cloneMap ords i).
Proof.
  intros i g g' S. unfold cloneMap. rewrite <- (sim_calls _ _ S), <- (mapOf_sim _ _ i S). apply bind_same. intros c _. exact (newMap_sim c _ _ (tick_sim _ _ S)).
Qed.
Lemma cloneGlobalMap_quiet : forall i, quiet (cloneGlobalMap ords i).
Proof.
  intros i g g' S. unfold cloneGlobalMap. rewrite <- (sim_calls _ _ S), <- (mapOf_sim _ _ i S). apply bind_same. intros c _. exact (newMap_sim c _ _ (tick_sim _ _ S)).
Qed.
Lemma mergeMaps_quiet : forall i j, quiet (mergeMaps ords i j).
Proof.
  intros i j g g' S. unfold mergeMaps. rewrite <- (sim_calls _ _ S), <- (mapOf_sim _ _ i S), <- (mapOf_sim _ _ j S). apply bind_same. intros c _.
  exact (newMap_sim c _ _ (tick_sim _ _ (tick_sim _ _ S))).
Qed.
End Ords.
Lemma lookupOrCreate_quiet : forall i f v, quiet (lookupOrCreate i f v).
Proof.
  intros i f v g g' S. unfold lookupOrCreate. rewrite <- (mapOf_sim _ _ i S). apply bind_same. intros [u c] _. cbn. split; auto. split; [now apply putMap_sim|auto].
Qed.

Section Run.
Variables grow grow' : nat -> nat -> nat.
Variable ords : nat -> uorders.
Variable sel : nat -> list vec -> list vec.
Variable ps : nat -> nat -> list nat.
Hypothesis Hsel : positions sel ps.
Variable r : resolver.
Variable sg : string -> bool.

(** * Selection *)
Lemma select_two : forall b b' g g' vs vs' h h' ws k ws' k', two b b' g g' vs vs' h h' -> select sel vs h = (ws, k) -> select sel vs' h' = (ws', k') ->
  two b b' g g' ws ws' k k' /\ List.length ws <= List.length vs.
Proof.
  intros b b' g g' vs vs' h h' ws k ws' k' T H H'. pose proof T as [A1 A2 A3 A4 A5 A6]. unfold select in *. rewrite <- (sim_calls _ _ A1) in H'. inversion H; inversion H'; subst; clear H H'.
  assert (LS : forall b h vs, live b h vs -> live b h (sel (calls h) vs)).
  { intros c q us (F & S). destruct (positions_rest _ _ Hsel (calls q) us) as (rest & P). split.
    - apply Forall_forall. intros v I. rewrite Forall_forall in F. apply F. eapply Permutation_in; [exact P|]. apply in_or_app; auto.
    - apply Permutation_sym in P. apply (Permutation_map vdata) in P. eapply safe_perm in S; [|exact P]. rewrite map_app in S. now apply safe_app in S. }
  split.
  - apply (two_bufs b b' g g' _ _ h h'); auto; [now apply tick_sim|]. constructor; auto.
    + rewrite (sim_calls _ _ A1). auto.
    + eapply positions_forall2; eauto.
  - destruct (positions_rest _ _ Hsel (calls h) vs) as (rest & P). apply Permutation_length in P. rewrite app_length in P. lia.
Qed.

(** * Joining *)
Lemma prepend_two : forall v v' mvs mvs' f f' g g', two (nbufs f) (nbufs f') f f' mvs mvs' g g' ->
  okS f (vdata v) -> okS f' (vdata v') -> readS f (vdata v) = readS f' (vdata v') ->
  forall e h e' h', prepend grow v mvs g = (e, h) -> prepend grow' v' mvs' g' = (e', h') ->
  two (nbufs f) (nbufs f') f f' e e' h h' /\ List.length e = List.length mvs.
Proof.
  intros v v' mvs mvs' f f' g g' [A1 A2 A3 A4 A5 A6] O O' RV e h e' h' H H'.
  destruct (keep_slice _ _ _ A2 O) as (O1 & R1 & _). destruct (keep_slice _ _ _ A3 O') as (O1' & R1' & _).
  destruct (prepend_spec grow v mvs g e h (nbufs f) [] H O1 (proj1 O) (proj1 A4) (Forall_nil _)) as (M & K & F & _ & S & _); [rewrite app_nil_r; apply A4|].
  destruct (prepend_spec grow' v' mvs' g' e' h' (nbufs f') [] H' O1' (proj1 O') (proj1 A5) (Forall_nil _)) as (M' & K' & F' & _ & S' & _); [rewrite app_nil_r; apply A5|].
  rewrite app_nil_r in S, S'. destruct M as (M1 & M2 & M3 & M4), M' as (M1' & M2' & M3' & M4'). split; [|clear -F; induction F; cbn; auto].
  constructor.
  - destruct A1. constructor; congruence.
  - apply (keep_trans _ (nbufs f) f g h); auto.
  - apply (keep_trans _ (nbufs f') f' g' h'); auto.
  - split; auto. clear -F. induction F as [|m d l l' (X1 & X2 & _) F IH]; constructor; auto.
  - split; auto. clear -F'. induction F' as [|m d l l' (X1 & X2 & _) F IH]; constructor; auto.
  - rewrite R1 in F. rewrite R1' in F'. clear -A6 F F' RV. revert e e' F F'. induction A6 as [|m m' l l' (C & D) A6 IH]; intros e e' F F'; inversion F; inversion F'; subst; constructor; auto.
    destruct H1 as (_ & _ & C1 & D1), H6 as (_ & _ & C2 & D2). split; [congruence|]. rewrite D1, D2, D, RV. reflexivity.
Qed.
Lemma extend_two : forall (single : Prop) mem mem', alike single mem mem' -> forall vs vs' g g', sim g g' ->
  Forall (fun v => okS g (vdata v)) vs -> Forall (fun v => okS g' (vdata v)) vs' -> Forall2 (sameVec g g') vs vs' ->
  sameOut (twoOut (fun n => single -> n <= List.length vs) (nbufs g) (nbufs g') g g') (extend grow mem vs g) (extend grow' mem' vs' g').
Proof.
  intros single mem mem' HM. induction vs as [|v vs IH]; intros vs' g g' S F F' R; inversion R as [|? v' ? vs1 (RC & RD) R']; subst.
  - cbn. split; [|cbn; lia]. now apply two_nil.
  - cbn [extend]. inversion F as [|? ? F1 F2]; inversion F' as [|? ? F1' F2']; subst. rewrite <- RC.
    eapply bind_out; [apply HM; apply setCur_sim; exact S|]. intros [mvs g1] [mvs' g1'] (T & SL). cbn [fst snd] in T, SL.
    apply (two_from _ _ (setCur (vcons v) g) (setCur (vcons v) g') _ _ _ _ g g' eq_refl eq_refl) in T. change (nbufs (setCur (vcons v) g)) with (nbufs g) in T. change (nbufs (setCur (vcons v) g')) with (nbufs g') in T.
    destruct (prepend grow v mvs g1) as [e g2] eqn:E. destruct (prepend grow' v' mvs' g1') as [e' g2'] eqn:E'.
    destruct (prepend_two _ _ _ _ _ _ _ _ T F1 F1' RD _ _ _ _ E E') as (T2 & L2). pose proof T2 as [B1 B2 B3 B4 B5 B6].
    assert (G1 : Forall (fun v => okS g2 (vdata v)) vs) by (eapply Forall_impl; [|exact F2]; intros x X; now apply (keep_slice g)).
    assert (G1' : Forall (fun v => okS g2' (vdata v)) vs1) by (eapply Forall_impl; [|exact F2']; intros x X; now apply (keep_slice g')).
    eapply bind_out; [apply (IH vs1 g2 g2' B1 G1 G1'); eapply (same_keep g g'); eauto|].
    intros [rest g3] [rest' g3'] (T3 & SL3). cbn [fst snd] in T3, SL3. split; cbn [fst snd].
    + apply (two_join _ _ _ _ _ _ g2 g2'); auto; [apply B2|apply B3].
    + intros X. cbn [List.length]. rewrite app_length, L2. specialize (SL X). specialize (SL3 X). lia.
Qed.
Lemma membersLoop_two : forall (single : Prop) mem mem', forall ms, (forall m, In m ms -> alike single (mem m) (mem' m)) -> forall b b' vs vs' g g', b <= nbufs g -> b' <= nbufs g' ->
  two b b' g g' vs vs' g g' ->
  sameOut (twoOut (fun n => single -> n <= List.length vs) b b' g g') (membersLoop grow sel mem ms vs g) (membersLoop grow' sel mem' ms vs' g').
Proof.
  intros single mem mem'. induction ms as [|m ms IH]; intros HM b b' vs vs' g g' L L' T; cbn [membersLoop].
  - cbn. split; auto.
  - eapply bind_out; [apply (IH (fun m I => HM m (or_intror I)) b b'); auto|]. intros [vs1 g1] [vs1' g1'] (T1 & SL1). cbn [fst snd] in T1, SL1. pose proof T1 as [B1 B2 B3 B4 B5 B6].
    eapply bind_out; [apply (extend_two single _ _ (HM m (or_introl eq_refl)) vs1 vs1' g1 g1' B1 (live_ok _ _ _ B4) (live_ok _ _ _ B5) B6)|].
    intros [e g2] [e' g2'] (T2 & SL2). cbn [fst snd] in T2, SL2. cbn [sameOut]. destruct (select sel e g2) as [ws k] eqn:E. destruct (select sel e' g2') as [ws' k'] eqn:E'.
    destruct (select_two _ _ _ _ _ _ _ _ _ _ _ _ T2 E E') as (T3 & L3). split; cbn [fst snd].
    + destruct T3 as [C1 C2 C3 C4 C5 C6]. constructor; auto.
      * apply (keep_trans _ (nbufs g1) g g1 k); auto. apply B2.
      * apply (keep_trans _ (nbufs g1') g' g1' k'); auto. apply B3.
      * eapply live_weak; [|exact C4]. destruct B2. lia.
      * eapply live_weak; [|exact C5]. destruct B3. lia.
    + intros X. specialize (SL1 X). specialize (SL2 X). lia.
Qed.

(** * Arrays *)
Lemma append_bufs : forall (gw : nat -> nat -> nat) a bs g k, bufs g = bufs k ->
  fst (appendS gw a bs g) = fst (appendS gw a bs k) /\ bufs (snd (appendS gw a bs g)) = bufs (snd (appendS gw a bs k)) /\
  maps (snd (appendS gw a bs g)) = maps g /\ cur (snd (appendS gw a bs g)) = cur g /\ rnd (snd (appendS gw a bs g)) = rnd g /\ calls (snd (appendS gw a bs g)) = calls g.
Proof. intros gw a bs g k E. unfold appendS. rewrite E. destruct (_ <=? _); cbn [fst snd bufs maps cur rnd calls]; auto 7. Qed.
(** With one vector [w], [cross] joins as [prepend] does. *)
Lemma cross_data : forall (gw : nat -> nat -> nat) w a g k vs h, bufs g = bufs k -> cross gw ords a [w] g = Ok (vs, h) ->
  exists e h0, prepend gw w a k = (e, h0) /\ map vdata vs = map vdata e /\ bufs h = bufs h0.
Proof.
  intros gw w. induction a as [|u a IH]; intros g k vs h E H; cbn [cross crossOne] in H.
  - inversion H; subst. exists [], k. cbn. auto.
  - destruct (mergeMaps ords (vcons u) (vcons w) g) as [[m g1]| | |] eqn:EM; try discriminate. cbn [bind] in H.
    destruct (appendS gw (vdata u) (readS g1 (vdata w)) g1) as [d g2] eqn:EA. cbn [bind] in H.
    destruct (cross gw ords a [w] g2) as [[q g3]| | |] eqn:EC; try discriminate. cbn [bind] in H. inversion H; subst vs h; clear H.
    assert (B1 : bufs g1 = bufs k).
    { unfold mergeMaps in EM. destruct (cMerge _ _ _ _); try discriminate. inversion EM; subst. exact E. }
    cbn [prepend]. assert (RD : readS g1 (vdata w) = readS k (vdata w)) by (unfold readS; now rewrite B1). rewrite RD in EA.
    destruct (append_bufs gw (vdata u) (readS k (vdata w)) g1 k B1) as (A1 & A2 & _). rewrite EA in A1, A2. cbn [fst snd] in A1, A2.
    destruct (appendS gw (vdata u) (readS k (vdata w)) k) as [d' k2]. cbn [fst snd] in A1, A2. subst d'.
    destruct (IH g2 k2 q g3 A2 EC) as (e & h0 & X1 & X2 & X3). rewrite X1. exists (mkVec d (vcons u) :: e), h0. split; auto. split; auto. cbn. now rewrite X2.
Qed.
Lemma cross_nil : forall (gw : nat -> nat -> nat) a g, cross gw ords a [] g = Ok ([], g).
Proof. intros gw. induction a as [|u a IH]; intros g; cbn [cross crossOne bind]; auto. rewrite IH. reflexivity. Qed.
Lemma cross_maps : forall w w' a a' g g', sim g g' -> vcons w = vcons w' -> Forall2 (fun u u' => vcons u = vcons u') a a' ->
  sameOut (fun x y => sim (snd x) (snd y) /\ Forall2 (fun u u' => vcons u = vcons u') (fst x) (fst y)) (cross grow ords a [w] g) (cross grow' ords a' [w'] g').
Proof.
  intros w w' a a' g g' S W H. revert g g' S. induction H as [|u u' a a' U H IH]; intros g g' S; cbn [cross crossOne].
  - cbn. auto.
  - rewrite <- W, <- U. eapply bind_out with (R := fun x y => sim (snd x) (snd y) /\ Forall2 (fun u u' => vcons u = vcons u') (fst x) (fst y)).
    + eapply bind_out; [apply mergeMaps_quiet; exact S|]. intros [m h] [m' h'] (E1 & S1 & B1 & B1'). cbn [fst snd] in *. subst m'.
      destruct (append_bufs grow (vdata u) (readS h (vdata w)) h h eq_refl) as (_ & _ & A1 & A2 & A3 & A4).
      destruct (append_bufs grow' (vdata u') (readS h' (vdata w')) h' h' eq_refl) as (_ & _ & A1' & A2' & A3' & A4').
      destruct (appendS grow _ _ h) as [d k], (appendS grow' _ _ h') as [d' k']. cbn [fst snd bind sameOut] in *. split.
      * destruct S1. constructor; congruence.
      * constructor; auto.
    + intros [p h] [p' h'] (S1 & F1). cbn [fst snd] in *. eapply bind_out; [apply IH; exact S1|]. intros [q k] [q' k'] (S2 & F2). cbn [fst snd sameOut] in *. split; auto.
      apply Forall2_app; auto.
Qed.
Lemma cross_two : forall f f' w w' g g' v v', two (nbufs f) (nbufs f') f f' w w' g g' ->
  Forall (fun x => okS f (vdata x)) v -> Forall (fun x => okS f' (vdata x)) v' -> Forall2 (sameVec f f') v v' -> List.length v <= 1 ->
  sameOut (twoOut (fun n => n <= List.length w) (nbufs f) (nbufs f') f f') (cross grow ords w v g) (cross grow' ords w' v' g').
Proof.
  intros f f' w w' g g' v v' T O O' R L. destruct R as [|x x' v v' (RC & RD) R].
  - rewrite !cross_nil. cbn. split; [|cbn; lia]. destruct T as [A1 A2 A3 A4 A5 A6]. constructor; auto; cbn; try constructor; cbn; auto.
  - destruct v; [|cbn in L; lia]. inversion R; subst v'. clear R L. inversion O as [|? ? O1 _]; inversion O' as [|? ? O1' _]; subst.
    pose proof T as [A1 A2 A3 A4 A5 A6].
    assert (FC : Forall2 (fun u u' => vcons u = vcons u') w w') by (clear -A6; induction A6 as [|? ? ? ? (C & _)]; constructor; auto).
    pose proof (cross_maps x x' w w' g g' A1 RC FC) as SO.
    destruct (cross grow ords w [x] g) as [[vs h]|e|m|] eqn:E, (cross grow' ords w' [x'] g') as [[vs' h']|e'|m'|] eqn:E'; cbn [sameOut] in SO |- *; auto; try contradiction.
    destruct SO as (S & FV). cbn [fst snd] in S, FV.
    destruct (cross_data _ _ _ _ g _ _ eq_refl E) as (p & k & P1 & P2 & P3). destruct (cross_data _ _ _ _ g' _ _ eq_refl E') as (p' & k' & P1' & P2' & P3').
    destruct (prepend_two _ _ _ _ _ _ _ _ T O1 O1' RD _ _ _ _ P1 P1') as (T2 & L2).
    assert (LN : List.length vs = List.length p) by (rewrite <- (map_length vdata vs), P2; apply map_length).
    split; cbn [fst snd]; [|lia].
    assert (LD : forall b k h vs p, map vdata vs = map vdata p -> bufs h = bufs k -> live b k p -> live b h vs).
    { clear. intros b k h vs p E B LV. apply (live_bufs b k h) in LV; auto. destruct LV as (F & S). split; [|now rewrite E].
      clear S. revert p E F. induction vs as [|y vs IH]; intros [|z p] E F; cbn in E; try discriminate; constructor; inversion E; inversion F; subst; eauto. now rewrite H0. }
    destruct T2 as [C1 C2 C3 C4 C5 C6]. constructor; auto.
    + eapply keep_bufs; eauto.
    + eapply keep_bufs; eauto.
    + eapply LD; eauto.
    + eapply LD; eauto.
    + clear -C6 FV P2 P2' P3 P3'. revert vs vs' FV P2 P2'. induction C6 as [|y y' p p' (_ & D) C6 IH]; intros vs vs' FV P2 P2'.
      * destruct vs; [|discriminate]. destruct vs'; [|discriminate]. constructor.
      * destruct vs as [|z vs]; [discriminate|]. destruct vs' as [|z' vs']; [discriminate|]. cbn [map] in P2, P2'. inversion P2. inversion P2'. inversion FV; subst. constructor; auto. split; auto.
        unfold readS in *. rewrite P3, P3', H0, H2. exact D.
Qed.
Lemma arrayLoop_two : forall elem elem', alike True elem elem' -> forall n b b' v v' g g', b <= nbufs g -> b' <= nbufs g' -> two b b' g g' v v' g g' -> List.length v <= 1 ->
  sameOut (twoOut (fun n => n <= 1) b b' g g') (arrayLoop grow ords sel elem n v g) (arrayLoop grow' ords sel elem' n v' g').
Proof.
  intros elem elem' HE. induction n as [|n IH]; intros b b' v v' g g' L L' T LV; cbn [arrayLoop].
  - cbn. split; auto.
  - pose proof T as [A1 A2 A3 A4 A5 A6]. eapply bind_out; [apply HE; exact A1|]. intros [w g1] [w' g1'] (T1 & L1). cbn [fst snd] in T1, L1. specialize (L1 I).
    eapply bind_out; [apply (cross_two g g' w w' g1 g1' v v' T1 (live_ok _ _ _ A4) (live_ok _ _ _ A5) A6 LV)|].
    intros [v1 g2] [v1' g2'] (T2 & L2). cbn [fst snd] in T2, L2. destruct (select sel v1 g2) as [v2 g3] eqn:E. destruct (select sel v1' g2') as [v2' g3'] eqn:E'.
    destruct (select_two _ _ _ _ _ _ _ _ _ _ _ _ T2 E E') as (T3 & L3). pose proof T3 as [C1 C2 C3 C4 C5 C6].
    eapply out_weak; [|apply (IH b b' v2 v2' g3 g3')].
    + intros [x k] [y k'] (X1 & X2). split; auto. cbn [fst snd] in *. destruct X1 as [D1 D2 D3 D4 D5 D6]. constructor; auto.
      * apply (keep_trans _ (nbufs g3) g g3 k); auto. apply C2.
      * apply (keep_trans _ (nbufs g3') g' g3' k'); auto. apply C3.
    + destruct C2. lia.
    + destruct C3. lia.
    + constructor; auto using keep_refl; eapply live_weak; eauto.
    + lia.
Qed.

(** * Fields and members *)
Section Body.
Variable fuel : nat.
Variables callS callS' : struct -> gst -> outcome (list vec * gst).
Hypothesis Hcall : forall n s, StructNonExtern r n = Ok s -> alike (sg n = true) (callS s) (callS' s).
Variable strct : struct.

Lemma two_self : forall b b' f f' g g' v v', two b b' f f' v v' g g' -> two b b' g g' v v' g g'.
Proof. intros b b' f f' g g' v v' [A1 A2 A3 A4 A5 A6]. constructor; auto using keep_refl. Qed.
Lemma two_after : forall b b' f f' g g' h h' v v', keepB (nbufs f) f g -> keepB (nbufs f') f' g' -> two b b' g g' v v' h h' -> two b b' f f' v v' h h'.
Proof.
  intros b b' f f' g g' h h' v v' K K' [A1 A2 A3 A4 A5 A6]. constructor; auto.
  - apply (keep_trans _ (nbufs g) f g h); auto. apply K.
  - apply (keep_trans _ (nbufs g') f' g' h'); auto. apply K'.
Qed.

Lemma intType_two : forall nm sz cst, alike True (intType r fuel nm sz cst) (intType r fuel nm sz cst).
Proof.
  intros nm sz cst g g' S. unfold intType.
  eapply bind_out with (R := fun x y => fst x = fst y /\ sim (snd x) (snd y) /\ bufs (snd x) = bufs g /\ bufs (snd y) = bufs g').
  - rewrite <- (sim_cur _ _ S), <- (mapOf_sim _ _ (cur g) S). destruct (cLookup _ _ _) as [x|]; [cbn; auto|]. destruct cst as [l|].
    + apply bind_same. intros s _. eapply bind_out; [apply randomIn_quiet; exact S|]. intros [x h] [x' h'] (E & Q). cbn [fst snd] in *. subst x'. cbn. auto.
    + cbn [sameOut]. unfold randint. apply randRead_pure. exact S.
  - intros [bs h] [bs' h'] (E & S1 & B & B'). cbn [fst snd] in *. subst bs'. destruct (vectorOf bs h) as [v k] eqn:EV. destruct (vectorOf bs h') as [v' k'] eqn:EV'.
    destruct (vectorOf_two _ _ _ _ _ _ _ S1 EV EV') as (T & _). rewrite B, B' in T. cbn [sameOut]. split; [|cbn; lia]. cbn [fst snd]. eapply two_from; eauto.
Qed.
Lemma empty_two : forall g g', sim g g' -> exists v v' h h', emptyVec g = (v, h) /\ emptyVec g' = (v', h') /\ two (nbufs g) (nbufs g') g g' [v] [v'] h h' /\ vcons v = vcons v' /\ sim h h'.
Proof.
  intros g g' S. unfold emptyVec. destruct (vectorOf [] g) as [v h] eqn:E. destruct (vectorOf [] g') as [v' h'] eqn:E'.
  destruct (vectorOf_two _ _ _ _ _ _ _ S E E') as (T & C & _). exists v, v', h, h'. repeat split; auto; apply T.
Qed.
Lemma field_two : forall t nm, aloneT sg t = true -> alike (singleT sg t = true) (field grow ords sel r fuel callS nm t) (field grow' ords sel r fuel callS' nm t).
Proof.
  induction t as [sz cst| | | |n|b IH i|b IH len]; intros nm AL g g' S; cbn [field].
  - eapply out_weak; [|apply intType_two; exact S]. intros x y (A & B). split; auto.
  - eapply out_weak; [|apply intType_two; exact S]. intros x y (A & B). split; auto.
  - destruct (empty_two g g' S) as (v & v' & h & h' & -> & -> & T & _). cbn. split; [exact T|cbn; lia].
  - destruct (randnulterm_pure 2 20 g g' S) as (E & S1 & B & B'). destruct (randnulterm 2 20 g) as [bs h], (randnulterm 2 20 g') as [bs' h']. cbn [fst snd] in *. subst bs'.
    destruct (vectorOf bs h) as [v k] eqn:EV. destruct (vectorOf bs h') as [v' k'] eqn:EV'.
    destruct (vectorOf_two _ _ _ _ _ _ _ S1 EV EV') as (T & _). rewrite B, B' in T. cbn [sameOut]. split; [|cbn; lia]. cbn [fst snd]. eapply two_from; eauto.
  - apply bind_same. intros s E. apply Hcall; auto.
  - destruct (empty_two g g' S) as (v & v' & h & h' & -> & -> & T & _ & S1). apply bind_same. intros n _. cbn [aloneT] in AL.
    assert (AB : aloneT sg b = true) by (destruct b; auto).
    pose proof T as [A1 A2 A3 A4 A5 A6]. eapply out_weak; [|apply (arrayLoop_two _ _ ) with (b := nbufs g) (b' := nbufs g')].
    + intros x y (X & Y). split; [|auto]. eapply two_after; eauto.
    + intros f f' SF. eapply out_weak; [|apply IH; auto]. intros x y (X & Y). split; auto.
    + apply A2.
    + apply A3.
    + eapply two_self; eauto.
    + cbn; lia.
  - cbn [aloneT] in AL. assert (AB : aloneT sg b = true) by (destruct b; auto).
    assert (EL : alike True (field grow ords sel r fuel callS "" b) (field grow' ords sel r fuel callS' "" b)).
    { intros f f' SF. eapply out_weak; [|apply IH; auto]. intros x y (X & Y). split; auto. }
    assert (LOOP : forall v v' h h' k k' n, two (nbufs g) (nbufs g') g g' [v] [v'] h h' -> sim k k' -> bufs k = bufs h -> bufs k' = bufs h' ->
      sameOut (twoOut (fun n => singleT sg (TVar b len) = true -> n <= 1) (nbufs g) (nbufs g') g g')
        (arrayLoop grow ords sel (field grow ords sel r fuel callS "" b) n [v] k) (arrayLoop grow' ords sel (field grow' ords sel r fuel callS' "" b) n [v'] k')).
    { intros v v' h h' k k' n T SK B B'. pose proof (two_bufs _ _ _ _ _ _ _ _ _ _ B B' SK T) as T1. pose proof T1 as [A1 A2 A3 A4 A5 A6].
      eapply out_weak; [|apply (arrayLoop_two _ _ EL n (nbufs g) (nbufs g'))].
      - intros x y (X & Y). split; [|auto]. eapply two_after; eauto.
      - apply A2.
      - apply A3.
      - eapply two_self; eauto.
      - cbn; lia. }
    destruct len as [[f|k]|]; [|now cbn|].
    + destruct (empty_two g g' S) as (v & v' & h & h' & -> & -> & T & CV & S1).
      destruct (randbtw_pure 1 20 h h' S1) as (E & S2 & B & B'). destruct (randbtw 1 20 h) as [d k], (randbtw 1 20 h') as [d' k']. cbn [fst snd] in *. subst d'. rewrite <- CV.
      eapply bind_out; [apply lookupOrCreate_quiet; exact S2|]. intros [n q] [n' q'] (E & S3 & B3 & B3'). cbn [fst snd] in *. subst n'.
      apply (LOOP _ _ h h'); auto; congruence.
    + destruct (empty_two g g' S) as (v & v' & h & h' & -> & -> & T & CV & S1).
      destruct (randbtw_pure 1 20 h h' S1) as (E & S2 & B & B'). destruct (randbtw 1 20 h) as [d k], (randbtw 1 20 h') as [d' k']. cbn [fst snd] in *. subst d'.
      apply (LOOP _ _ h h'); auto; congruence.
Qed.

Lemma lenconstrain_two : forall f b b' f0 f0' vs vs' g g', two b b' f0 f0' vs vs' g g' ->
  sameOut (twoOut (fun _ => True) b b' f0 f0') (lenconstrain ords f vs g) (lenconstrain ords f vs' g').
Proof.
  intros f b b' f0 f0' vs vs' g g' T. assert (H : sameOut (fun x y => sim (snd x) (snd y) /\ bufs (snd x) = bufs g /\ bufs (snd y) = bufs g' /\
    exists keep, map vdata (fst x) = map snd (filter fst (combine keep (map vdata vs))) /\ map vdata (fst y) = map snd (filter fst (combine keep (map vdata vs'))) /\ map vcons (fst x) = map vcons (fst y))
    (lenconstrain ords f vs g) (lenconstrain ords f vs' g')).
  { pose proof T as [A1 _ _ A4 A5 A6]. apply live_ok in A4, A5.
    assert (A7 : Forall2 (fun v v' => vcons v = vcons v' /\ slen (vdata v) = slen (vdata v')) vs vs').
    { clear -A4 A5 A6. revert A4 A5. induction A6 as [|v v' vs vs' (C & D) A6 IH]; intros A4 A5; constructor; inversion A4; inversion A5; subst; auto. split; auto.
      rewrite <- (readS_length g), <- (readS_length g') by auto. now rewrite D. }
    clear -A1 A7. revert g g' A1. induction A7 as [|v v' vs vs' (C & D) A7 IH]; intros g g' S; cbn [lenconstrain].
    - cbn. split; auto. split; auto. split; auto. exists []. cbn. auto.
    - rewrite <- C, <- D. eapply bind_out; [apply cloneMap_quiet; exact S|]. intros [c h] [c' h'] (E1 & S1 & B1 & B1'). cbn [fst snd] in *. subst c'.
      eapply bind_out; [apply lookupOrCreate_quiet; exact S1|]. intros [m h1] [m' h1'] (E2 & S2 & B2 & B2'). cbn [fst snd] in *. subst m'.
      eapply bind_out; [apply IH; exact S2|]. intros [q k] [q' k'] (S3 & B3 & B3' & keep & K1 & K2 & K3). cbn [fst snd sameOut] in *. split; auto. split; [congruence|]. split; [congruence|].
      exists ((m =? Z.of_nat (slen (vdata v)))%Z :: keep). destruct (m =? _)%Z; cbn; rewrite K1, K2, K3; auto. }
  eapply out_weak; [|exact H]. intros [q k] [q' k'] (S & B & B' & keep & K1 & K2 & K3). cbn [fst snd] in *. split; [|auto]. cbn [fst snd].
  apply (two_bufs b b' f0 f0' q q' g g'); auto. destruct T as [A1 A2 A3 A4 A5 A6].
  assert (SUB : forall {A} (keep : list bool) (l : list A) x, In x (map snd (filter fst (combine keep l))) -> In x l).
  { intros A kp l x I. apply in_map_iff in I as ([c y] & <- & I). apply filter_In in I as (I & _). apply in_combine_r in I. auto. }
  assert (SF : forall g keep l, safe g l -> safe g (map snd (filter fst (combine keep l)))).
  { clear -SUB. intros g keep. induction keep as [|c keep IH]; intros [|x l]; cbn; auto. intros (F & S0). destruct c; cbn; auto. split; auto.
    apply Forall_forall. intros y I. rewrite Forall_forall in F. apply F. eapply SUB; eauto. }
  assert (LV : forall b g vs q, map vdata q = map snd (filter fst (combine keep (map vdata vs))) -> live b g vs -> live b g q).
  { intros c g0 us p E (F & S0). split; [|rewrite E; auto]. apply Forall_forall. intros v I. apply (in_map vdata) in I. rewrite E in I. apply SUB in I.
    apply in_map_iff in I as (u & <- & I). rewrite Forall_forall in F. auto. }
  constructor; auto.
  - eapply LV; eauto.
  - eapply LV; eauto.
  - assert (RD : Forall2 (fun s s' => readS g s = readS g' s') (map vdata vs) (map vdata vs')) by (clear -A6; induction A6 as [|? ? ? ? (_ & D)]; cbn; constructor; auto).
    assert (RD2 : Forall2 (fun s s' => readS g s = readS g' s') (map vdata q) (map vdata q')).
    { rewrite K1, K2. clear -RD. revert keep. induction RD as [|s s' l l' X RD IH]; intros [|c keep]; cbn; try constructor. destruct c; cbn; auto. }
    clear -RD2 K3. revert q' K3 RD2. induction q as [|v q IH]; intros [|v' q'] K3 RD2; cbn in K3; try discriminate; constructor; inversion K3; inversion RD2; subst; auto. split; auto.
Qed.

Lemma unionLoop_two : forall gen gen' tag base,
  (forall c b b' vs vs' g g', b <= nbufs g -> b' <= nbufs g' -> two b b' g g' vs vs' g g' -> forallb (aloneM sg) (ucase_members c) = true ->
     sameOut (twoOut (fun _ => True) b b' g g') (gen c vs g) (gen' c vs' g')) ->
  forall bs g g', Forall (fun b => forallb (aloneM sg) (ucase_members (bcase b)) = true) bs -> sim g g' ->
  sameOut (twoOut (fun _ => True) (nbufs g) (nbufs g') g g') (unionLoop ords fuel gen tag base bs g) (unionLoop ords fuel gen' tag base bs g').
Proof.
  intros gen gen' tag base HG. induction bs as [|b bs IH]; intros g g' F S; cbn [unionLoop].
  - cbn. split; auto. now apply two_nil.
  - inversion F as [|? ? F1 F2]; subst. eapply bind_out; [apply cloneMap_quiet; exact S|]. intros [c h] [c' h'] (E1 & S1 & B1 & B1'). cbn [fst snd] in *. subst c'.
    eapply bind_out; [apply randomIn_quiet; apply (setCur_sim c); exact S1|]. intros [x h1] [x' h1'] (E2 & S2 & B2 & B2'). cbn [fst snd setCur bufs] in *. subst x'.
    rewrite <- (sim_cur _ _ S2). eapply bind_out; [apply lookupOrCreate_quiet; exact S2|]. intros [u h2] [u' h2'] (E3 & S3 & B3 & B3'). cbn [fst snd] in *.
    destruct (empty_two h2 h2' S3) as (v & v' & h3 & h3' & -> & -> & T & _ & S4). pose proof T as [A1 A2 A3 A4 A5 A6].
    assert (Q : bufs h2 = bufs g) by congruence. assert (Q' : bufs h2' = bufs g') by congruence.
    eapply bind_out; [apply (HG (bcase b) (nbufs h2) (nbufs h2') [v] [v'] h3 h3'); auto; [apply A2|apply A3|eapply two_self; eauto]|].
    intros [vs h4] [vs' h4'] (T4 & _). cbn [fst snd] in T4. pose proof (two_after _ _ _ _ _ _ _ _ _ _ A2 A3 T4) as T5. apply (two_from _ _ h2 h2' _ _ _ _ g g' Q Q') in T5. rewrite Q, Q' in T5.
    pose proof T5 as [C1 C2 C3 C4 C5 C6].
    eapply bind_out; [apply (IH h4 h4' F2 C1)|]. intros [rest h5] [rest' h5'] (T6 & _). cbn [fst snd] in T6. split; auto. cbn [fst snd].
    apply (two_join _ _ _ _ _ _ h4 h4'); auto; [apply C2|apply C3].
Qed.

(** The branches come from the cases. *)
Lemma branchLoop_cases : forall cs d k bs d' k', branchLoop r cs d k = Ok (bs, d', k') ->
  Forall (fun b => In (bcase b) cs) bs /\ (forall c, k' = Some c -> In c cs \/ k = Some c).
Proof.
  induction cs as [|c cs IH]; intros d k bs d' k' H; cbn [branchLoop] in H.
  - inversion H; subst. split; auto.
  - destruct (ucase_list c) as [l|].
    + destruct (Intervals r l) as [s| | |]; try discriminate. cbn [bind] in H. destruct (Subtract d s) as [d1| | |]; try discriminate. cbn [bind] in H.
      destruct (branchLoop r cs d1 k) as [[[bs1 d2] k2]| | |] eqn:E; try discriminate. cbn [bind] in H. inversion H; subst; clear H.
      destruct (IH _ _ _ _ _ E) as (A & B). split.
      * constructor; [now left|]. eapply Forall_impl; [|exact A]. intros b I. now right.
      * intros c' E'. destruct (B c' E'); auto. left. now right.
    + destruct (IH _ _ _ _ _ H) as (A & B). split.
      * eapply Forall_impl; [|exact A]. intros b I. now right.
      * intros c' E'. destruct (B c' E') as [J|J]; [left; now right|]. inversion J; subst. left. now left.
Qed.
Lemma branches_cases : forall s tag cs bs, NewBranches r s tag cs = Ok bs -> Forall (fun b => In (bcase b) cs) bs.
Proof.
  intros s tag cs bs H. unfold NewBranches in H. destruct (IntType r tag s) as [[sz cst]| | |]; try discriminate. cbn [bind] in H.
  destruct (IntTypeSet sz) as [d0| | |]; try discriminate. cbn [bind] in H. destruct (branchLoop r cs d0 None) as [[[b1 d] k]| | |] eqn:E; try discriminate. cbn [bind] in H.
  destruct (branchLoop_cases _ _ _ _ _ _ E) as (A & B). inversion H; subst; clear H. destruct k as [c|]; auto. apply Forall_app. split; auto. constructor; [|constructor].
  cbn. destruct (B c eq_refl); auto. discriminate.
Qed.
Lemma gmember_two : forall gen gen',
  (forall c b b' vs vs' g g', b <= nbufs g -> b' <= nbufs g' -> two b b' g g' vs vs' g g' -> forallb (aloneM sg) (ucase_members c) = true ->
     sameOut (twoOut (fun _ => True) b b' g g') (gen c vs g) (gen' c vs' g')) ->
  forall m, aloneM sg m = true -> alike (singleM sg m = true) (gmember grow ords sel r fuel callS strct gen m) (gmember grow' ords sel r fuel callS' strct gen' m).
Proof.
  intros gen gen' HG m AL g g' S. destruct m as [nm t|u tag len cs| | |]; cbn [gmember].
  - apply field_two; auto.
  - apply bind_same. intros bs EB. unfold cLookupRef. rewrite <- (sim_cur _ _ S), <- (mapOf_sim _ _ (cur g) S).
    assert (FB : Forall (fun b => forallb (aloneM sg) (ucase_members (bcase b)) = true) bs).
    { eapply Forall_impl; [|exact (branches_cases _ _ _ _ EB)]. intros b I. cbn [aloneM] in AL. rewrite forallb_forall in AL. specialize (AL _ I). destruct (bcase b); auto. }
    destruct (unionOptions bs _) as [opts|] eqn:EO.
    2:{ cbn. split; [|cbn; lia]. now apply two_nil. }
    assert (FO : Forall (fun b => forallb (aloneM sg) (ucase_members (bcase b)) = true) opts).
    { unfold unionOptions in EO. destruct (cLookup _ _ _) as [x|]; [|inversion EO; now subst]. destruct (Lookup bs x) as [b|] eqn:EL; [|discriminate]. inversion EO; subst.
      constructor; auto. unfold Lookup in EL. apply find_some in EL as (I & _). rewrite Forall_forall in FB. auto. }
    eapply bind_out; [apply cloneMap_quiet; exact S|]. intros [base h] [base' h'] (E1 & S1 & B1 & B1'). cbn [fst snd] in *. subst base'.
    eapply bind_out; [apply (unionLoop_two gen gen' tag base HG opts h h' FO S1)|]. intros [res k] [res' k'] (T & _). cbn [fst snd] in T.
    apply (two_from _ _ h h' _ _ _ _ g g' B1 B1') in T. rewrite B1, B1' in T.
    destruct len as [[f|i]|]; [|now cbn|].
    + eapply out_weak; [|apply lenconstrain_two; exact T]. intros x y (X & _). split; auto. discriminate.
    + cbn. split; auto. discriminate.
  - destruct (empty_two g g' S) as (v & v' & h & h' & -> & -> & T & _). cbn. split; [exact T|cbn; lia].
  - cbn. split; [|cbn; lia]. now apply two_nil.
  - destruct (empty_two g g' S) as (v & v' & h & h' & -> & -> & T & _ & S1).
    destruct (randbytes_pure 1 7 h h' S1) as (E & S2 & B & B'). destruct (randbytes 1 7 h) as [bs k], (randbytes 1 7 h') as [bs' k']. cbn [fst snd] in *. subst bs'.
    destruct (vectorOf bs k) as [w q] eqn:EV. destruct (vectorOf bs k') as [w' q'] eqn:EV'. destruct (vectorOf_two _ _ _ _ _ _ _ S2 EV EV') as (T2 & _).
    cbn [sameOut]. split; [|discriminate]. cbn [fst snd]. change [v; w] with ([v] ++ [w]). change [v'; w'] with ([v'] ++ [w']).
    pose proof (two_bufs _ _ _ _ _ _ _ _ _ _ B B' S2 T) as T1. pose proof T1 as [A1 A2 A3 A4 A5 A6]. apply (two_join _ _ _ _ _ _ k k'); auto; [apply A2|apply A3].
Qed.
End Body.

(** * Structs *)
Hypothesis Hres : forall n s, StructNonExtern r n = Ok s -> aloneS sg s = true /\ sname s = n.

Lemma clears_bufs : forall vs g, bufs (fold_left (fun g v => clearMap (vcons v) g) vs g) = bufs g.
Proof. induction vs as [|v vs IH]; intros g; cbn [fold_left]; auto. rewrite IH. reflexivity. Qed.
Lemma clearMap_sim : forall i g g', sim g g' -> sim (clearMap i g) (clearMap i g').
Proof. intros i g g' S. unfold clearMap. rewrite (mapOf_sim _ _ i S). now apply putMap_sim. Qed.
Lemma clears_sim : forall vs vs' g g', map vcons vs = map vcons vs' -> sim g g' ->
  sim (fold_left (fun g v => clearMap (vcons v) g) vs g) (fold_left (fun g v => clearMap (vcons v) g) vs' g').
Proof.
  induction vs as [|v vs IH]; intros [|v' vs'] g g' E S; cbn in E; try discriminate; cbn [fold_left]; auto. inversion E. apply IH; auto. rewrite H0. now apply clearMap_sim.
Qed.

Definition genTwo (n : nat) : Prop := forall s ms b b' vs vs' g g', b <= nbufs g -> b' <= nbufs g' -> two b b' g g' vs vs' g g' -> forallb (aloneM sg) ms = true ->
  sameOut (twoOut (fun k => forallb (singleM sg) ms = true -> k <= List.length vs) b b' g g') (gmembers grow ords sel r n s ms vs g) (gmembers grow' ords sel r n s ms vs' g').
Lemma structure_two : forall n, genTwo n -> forall s, aloneS sg s = true ->
  alike (sg (sname s) = true) (structureWith ords (gmembers grow ords sel r n) s) (structureWith ords (gmembers grow' ords sel r n) s).
Proof.
  intros n HG s AL g g' S. unfold aloneS in AL. apply andb_true_iff in AL as (A1 & A2). unfold structureWith. rewrite <- (sim_cur _ _ S).
  eapply bind_out; [apply cloneGlobalMap_quiet; exact S|]. intros [c h] [c' h'] (E1 & S1 & B1 & B1'). cbn [fst snd] in *. subst c'.
  destruct (newSlice [] h) as [d k] eqn:E. destruct (newSlice [] h') as [d' k'] eqn:E'. destruct (newSlice_two _ _ _ _ _ _ _ S1 E E') as (S2 & T & _). specialize (T c).
  pose proof T as [C1 C2 C3 C4 C5 C6].
  eapply bind_out; [apply (HG s (members_of s) (nbufs h) (nbufs h') _ _ k k'); [apply C2|apply C3|eapply two_self; eauto|auto]|].
  intros [vs q] [vs' q'] (T2 & L2). cbn [fst snd] in T2, L2. cbn [sameOut].
  pose proof (two_after _ _ _ _ _ _ _ _ _ _ C2 C3 T2) as T3. apply (two_from _ _ h h' _ _ _ _ g g' B1 B1') in T3. rewrite B1, B1' in T3.
  split; cbn [fst snd].
  - pose proof T3 as [D1 D2 D3 D4 D5 D6]. apply (two_bufs _ _ _ _ _ _ q q'); auto.
    + now rewrite clears_bufs.
    + now rewrite clears_bufs.
    + apply clears_sim; [clear -D6; induction D6 as [|? ? ? ? (C & _)]; cbn; congruence|]. rewrite (sim_cur _ _ D1). now apply clearMap_sim.
  - intros SG. rewrite SG in A2. cbn in A2. exact (L2 A2).
Qed.
Lemma gmembers_two : forall n, genTwo n.
Proof.
  induction n as [|n IH]; intros s ms b b' vs vs' g g' L L' T AL; [exact I|]. cbn [gmembers].
  assert (MB : forall m, In m ms -> aloneM sg m = true) by (apply forallb_forall; auto).
  assert (GM : forall m, In m ms -> alike (singleM sg m = true)
     (gmember grow ords sel r n (structureWith ords (gmembers grow ords sel r n)) s (fun c => gmembers grow ords sel r n s (ucase_members c)) m)
     (gmember grow' ords sel r n (structureWith ords (gmembers grow' ords sel r n)) s (fun c => gmembers grow' ords sel r n s (ucase_members c)) m)).
  { intros m Im. apply gmember_two; [| |now apply MB].
    - intros nm s' E. destruct (Hres _ _ E) as (A & <-). apply structure_two; auto.
    - intros c b0 b0' ws ws' h h' X X' Y Z. eapply out_weak; [|apply (IH s (ucase_members c) b0 b0'); auto]. intros x y (Q & _). split; auto. }
  apply membersLoop_two; auto. intros m Im h h' S. eapply out_weak; [|apply GM; auto]. intros x y (X & Y). split; auto. intros SG. apply Y. rewrite forallb_forall in SG. auto.
Qed.

Definition sameSuites (g g' : gst) (x y : string * list vec) : Prop := fst x = fst y /\ Forall2 (sameVec g g') (snd x) (snd y).
Lemma suites_two : forall n ss g g', sim g g' -> Forall (fun s => Extern s = false -> aloneS sg s = true) ss ->
  sameOut (fun x y => sim (snd x) (snd y) /\ keepB (nbufs g) g (snd x) /\ keepB (nbufs g') g' (snd y) /\ Forall2 (sameSuites (snd x) (snd y)) (fst x) (fst y))
    (suites grow ords sel r n ss g) (suites grow' ords sel r n ss g').
Proof.
  intros n. induction ss as [|s ss IH]; intros g g' S F; cbn [suites]; [cbn; auto using keep_refl|]. inversion F as [|? ? F1 F2]; subst. destruct (Extern s); auto.
  destruct (newMap_sim NewConstraints g g' S) as (E1 & S1 & B1 & B1'). destruct (newMap NewConstraints g) as [c h], (newMap NewConstraints g') as [c' h']. cbn [fst snd] in *. subst c'.
  eapply bind_out; [unfold structure; apply (structure_two n (gmembers_two n) s (F1 eq_refl) (setCur c h) (setCur c h')); now apply setCur_sim|].
  intros [vs k] [vs' k'] (T & _). cbn [fst snd] in T. pose proof T as [A1 A2 A3 A4 A5 A6]. cbn [setCur bufs] in A2, A3. rewrite B1 in A2. rewrite B1' in A3.
  apply (keep_from _ g) in A2; [|auto]. apply (keep_from _ g') in A3; [|auto].
  eapply bind_out; [apply (IH k k' A1 F2)|]. intros [rest q] [rest' q'] (S3 & K3 & K3' & R3). cbn [fst snd sameOut] in *. split; auto.
  split; [apply (keep_trans _ (nbufs k) g k q); auto; apply A2|]. split; [apply (keep_trans _ (nbufs k') g' k' q'); auto; apply A3|].
  constructor; auto. split; auto. cbn [snd]. eapply (same_keep k k'); eauto; eapply live_ok; eauto.
Qed.
End Run.

Theorem alone : forall sg fs, aloneFiles sg fs = true -> forall grow grow' ords sel ps os n rn, positions sel ps -> all_valid os ->
  GenerateFiles grow ords sel os n fs rn = GenerateFiles grow' ords sel os n fs rn.
Proof.
  intros sg fs AL grow grow' ords sel ps os n rn P V. unfold GenerateFiles. destruct (NewResolverFiles os fs) as [r|e|m|] eqn:ER; auto. cbn [bind].
  unfold aloneFiles in AL. rewrite forallb_forall in AL.
  assert (HR : forall n s, StructNonExtern r n = Ok s -> aloneS sg s = true /\ sname s = n).
  { intros nm s E. unfold StructNonExtern in E. destruct (Struct r nm) as [s'|] eqn:ES; [|discriminate]. destruct (Extern s') eqn:EE; [discriminate|]. inversion E; subst s'.
    unfold NewResolverFiles in ER. destruct (addFiles_answers _ _ _ _ _ V ER) as (X & _). apply X in ES as [ES|(f & If & Is & N)]; auto; [discriminate|]. split; auto.
    apply AL. unfold definedStructs. apply filter_In. rewrite EE. split; auto. apply in_flat_map. eauto. }
  pose proof (suites_two grow grow' ords sel ps P r sg HR n (flat_map fstructs fs) (mkG [] 0 [] rn 0) (mkG [] 0 [] rn 0)) as H.
  assert (S0 : sim (mkG [] 0 [] rn 0) (mkG [] 0 [] rn 0)) by (constructor; auto). specialize (H S0).
  assert (F0 : Forall (fun s => Extern s = false -> aloneS sg s = true) (flat_map fstructs fs)).
  { apply Forall_forall. intros s I E. apply AL. unfold definedStructs. apply filter_In. rewrite E. auto. }
  specialize (H F0).
  destruct (suites grow ords sel r n _ _) as [[ss g]|e|m|], (suites grow' ords sel r n _ _) as [[ss' g']|e'|m'|]; cbn [sameOut] in H; try contradiction; cbn [bind]; try congruence.
  destruct H as (S & _ & _ & F). cbn [fst snd] in *. f_equal. clear -S F. induction F as [|[t vs] [t' vs'] ss ss' (E & V) F IH]; auto. cbn [map fst snd] in *. rewrite IH. f_equal. subst t'. f_equal.
  clear -S V. induction V as [|v v' vs vs' (C & D) V IH]; auto. cbn [map]. rewrite IH. f_equal. unfold seen. rewrite C, D, (mapOf_sim _ _ _ S). reflexivity.
Qed.

(** Both selectors pick positions. *)
Lemma all_positions : positions (fun _ vs => Exhaustive vs) (fun _ m => seq 0 m).
Proof.
  intros k m. split; [apply seq_NoDup|]. split; [apply Forall_forall; intros i I; apply in_seq in I; lia|]. intros vs d <-. symmetry. apply map_nth_seq.
Qed.
Lemma sample_positions : forall n perm d, (0 <= n)%Z -> (forall k m, Permutation (perm k m) (seq 0 m)) ->
  positions (fun k vs => match RandomSample n (perm k (List.length vs)) d vs with Ok l => l | _ => [] end)
    (fun k m => if (Z.of_nat m <=? n)%Z then seq 0 m else firstn (Z.to_nat n) (perm k m)).
Proof.
  intros n perm d N P k m. assert (A : NoDup (perm k m)) by (eapply Permutation_NoDup; [apply Permutation_sym, P|apply seq_NoDup]).
  assert (B : forall i, In i (perm k m) -> i < m) by (intros i I; apply (Permutation_in _ (P k m)) in I; apply in_seq in I; lia).
  assert (SUB : forall i, In i (firstn (Z.to_nat n) (perm k m)) -> In i (perm k m)) by (intros i I; rewrite <- (firstn_skipn (Z.to_nat n) (perm k m)); apply in_or_app; auto).
  destruct (Z.of_nat m <=? n)%Z eqn:E.
  - split; [apply seq_NoDup|]. split; [apply Forall_forall; intros i I; apply in_seq in I; lia|]. intros vs d' <-. unfold RandomSample. rewrite E. symmetry. apply map_nth_seq.
  - split; [|split].
    + rewrite <- (firstn_skipn (Z.to_nat n) (perm k m)) in A. clear -A. revert A. generalize (firstn (Z.to_nat n) (perm k m)) (skipn (Z.to_nat n) (perm k m)).
      induction l as [|x l IH]; intros q A; constructor; inversion A; subst; [|eauto]. intros I. apply H1. apply in_or_app; auto.
    + apply Forall_forall. auto.
    + intros vs d' <-. unfold RandomSample. rewrite E. destruct (Z.ltb_spec n 0); [lia|]. apply map_ext_in. intros i I. apply nth_indep. apply B, SUB, I.
Qed.
