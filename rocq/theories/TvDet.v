(** The test vectors do not depend on the order in which maps are visited. *)
From Coq Require Import ZArith String List Bool Lia.
From Verif Require Import Base Ast IntervalsModel InspectModel InspectSpec InspectProofs ResDet TvModel TvConstraints PkgModel.
Import ListNotations.
Open Scope string_scope.
Open Scope list_scope.
Open Scope Z_scope.

(** Go maps with the same entries. *)
Definition sameC (c d : cons) : Prop := goMap c /\ goMap d /\ noEmpty c /\ noEmpty d /\ forall s k, cLookup c s k = cLookup d s k.

Lemma sameC_new : sameC [] [].
Proof. split; [apply goMap_new|]. split; [apply goMap_new|]. split; [apply noEmpty_new|]. split; [apply noEmpty_new|]. auto. Qed.
Lemma sameC_nil : forall d, sameC [] d -> d = [].
Proof.
  intros [|[s vs] d] (_ & _ & _ & N & L); auto. exfalso. destruct vs as [|[k x] vs]; [eapply N; [now left|auto]|].
  specialize (L s k). unfold cLookup in L. cbn [alookup] in L. rewrite String.eqb_refl in L. cbn [alookup] in L. now rewrite String.eqb_refl in L.
Qed.
Lemma sameC_sym : forall c d, sameC c d -> sameC d c.
Proof. intros c d (A & B & C & D & E). unfold sameC. intuition. Qed.

Lemma clone_same : forall o o' c d, goodOrders o -> goodOrders o' -> sameC c d -> sameOut sameC (cClone o c) (cClone o' d).
Proof.
  intros o o' c d O O' (A & B & C & D & E). destruct (clone_spec o c O A) as (m & -> & G & N & L). destruct (clone_spec o' d O' B) as (m' & -> & G' & N' & L').
  cbn. split; auto. split; auto. split; auto. split; auto. intros s k. now rewrite L, L'.
Qed.
Lemma clear_same : forall c d, sameC c d -> sameC (cClearLocal c) (cClearLocal d).
Proof.
  intros c d (A & B & C & D & E). split; [now apply clearLocal_goMap|]. split; [now apply clearLocal_goMap|].
  split; [now apply clearLocal_noEmpty|]. split; [now apply clearLocal_noEmpty|]. intros s k. rewrite !clearLocal_lookup. destruct (String.eqb s ""); auto.
Qed.
Lemma compatible_dec : forall o1 o2 c d, goodOrders o1 -> goodOrders o2 -> goMap c -> goMap d -> compatible c d \/ ~ compatible c d.
Proof.
  intros o1 o2 c d O1 O2 G H. destruct (merge_spec o1 o2 c d O1 O2 G H) as (A & B & _).
  unfold cMerge in A. destruct (clone_spec o1 c O1 G) as (m & E & _). rewrite E in A. cbn [bind] in A. unfold cUpdate in A.
  destruct (cSetAll_total (cBindings o2 d) m) as [X|X]; [left; now apply A|right]. intros CO. apply A in CO as (q & Q). congruence.
Qed.
Lemma merge_same : forall o1 o2 o1' o2' c d c' d', goodOrders o1 -> goodOrders o2 -> goodOrders o1' -> goodOrders o2' -> sameC c c' -> sameC d d' ->
  sameOut sameC (cMerge o1 o2 c d) (cMerge o1' o2' c' d').
Proof.
  intros o1 o2 o1' o2' c d c' d' O1 O2 O1' O2' (A & B & _ & _ & E) (A' & B' & _ & _ & E').
  destruct (merge_spec o1 o2 c d O1 O2 A A') as (M1 & M2 & M3). destruct (merge_spec o1' o2' c' d' O1' O2' B B') as (N1 & N2 & N3).
  assert (CC : compatible c d <-> compatible c' d').
  { unfold compatible. split; intros H s k u v; [rewrite <- E, <- E'|rewrite E, E']; apply H. }
  destruct (compatible_dec o1 o2 c d O1 O2 A A') as [Y|Y].
  - destruct (proj2 M1 Y) as (m & Em). destruct (proj2 N1 (proj1 CC Y)) as (m' & Em'). rewrite Em, Em'. cbn.
    destruct (M3 _ Em) as (G & NE & L). destruct (N3 _ Em') as (G' & NE' & L'). split; auto. split; auto. split; auto. split; auto.
    intros s k. now rewrite L, L', E, E'.
  - rewrite M2, N2 by tauto. reflexivity.
Qed.
Lemma create_same : forall c d s k v, sameC c d ->
  sameOut (fun x y => fst x = fst y /\ sameC (snd x) (snd y)) (cLookupOrCreate c s k v) (cLookupOrCreate d s k v).
Proof.
  intros c d s k v (A & B & C & D & E).
  destruct (lookupOrCreate_spec c s k v A) as (u & c' & E1 & G1 & L1 & W1 & F1 & N1).
  destruct (lookupOrCreate_spec d s k v B) as (u' & d' & E2 & G2 & L2 & W2 & F2 & N2).
  rewrite E1, E2. cbn. rewrite E in W1.
  assert (u = u') by (destruct W1 as [W1|(W1 & ->)], W2 as [W2|(W2 & ->)]; congruence). subst u'. split; auto.
  split; auto. split; auto. split; auto. split; auto. intros s' k'.
  destruct (string_dec s' s) as [->|X]; [destruct (string_dec k' k) as [->|X]; [congruence|]|]; rewrite F1, F2 by congruence; auto.
Qed.

(** * States *)
Record simG (g g' : gst) : Prop := {
  sim_len : List.length (maps g) = List.length (maps g');
  sim_map : forall i, sameC (mapOf g i) (mapOf g' i);
  sim_cur : cur g = cur g';
  sim_bufs : bufs g = bufs g';
  sim_rnd : rnd g = rnd g';
  sim_calls : calls g = calls g' }.

Definition simR {A} (x y : A * gst) : Prop := fst x = fst y /\ simG (snd x) (snd y).
Definition simF {A} (f f' : gst -> outcome (A * gst)) : Prop := forall g g', simG g g' -> sameOut simR (f g) (f' g').
Definition simP {A} (f f' : gst -> A * gst) : Prop := forall g g', simG g g' -> simR (f g) (f' g').

Lemma sim_bind : forall {A B} (R : A -> A -> Prop) (Q : B -> B -> Prop) x y f g, sameOut R x y -> (forall a b, R a b -> sameOut Q (f a) (g b)) ->
  sameOut Q (bind x f) (bind y g).
Proof. intros A B R Q [a|e|m|] [b|e'|m'|] f g H K; cbn in *; try contradiction; auto. Qed.
Lemma sim_same : forall {A B} (Q : B -> B -> Prop) (x : outcome A) f g, (forall a, x = Ok a -> sameOut Q (f a) (g a)) -> sameOut Q (bind x f) (bind x g).
Proof. intros A B Q [a|e|m|] f g K; cbn; auto. Qed.
Ltac st L := eapply sim_bind; [eapply L; eassumption|]; let a := fresh "a" in let h := fresh "h" in let b := fresh "b" in let h' := fresh "h'" in
  let E := fresh "E" in let S := fresh "S" in intros [a h] [b h'] [E S]; cbn [fst snd] in E, S; subst b.
Ltac pu L S := let E := fresh "E" in let H := fresh "S" in destruct (L _ _ S) as [E H];
  match goal with |- sameOut _ (match ?x with (_, _) => _ end) (match ?y with (_, _) => _ end) => 
    let a := fresh "a" in let h := fresh "h" in let b := fresh "b" in let h' := fresh "h'" in
    destruct x as [a h], y as [b h']; cbn [fst snd] in E, H; subst b end.
Lemma sim_ok : forall {A} (a : A), simF (fun g => Ok (a, g)) (fun g => Ok (a, g)).
Proof. intros A a g g' S. cbn. split; auto. Qed.

Lemma setNth_length : forall {A} n (x : A) l, List.length (setNth n x l) = List.length l.
Proof.
  intros A n x l. unfold setNth. rewrite app_length. transitivity (List.length (firstn n l ++ skipn n l)); [|now rewrite firstn_skipn].
  rewrite app_length. destruct (skipn n l); auto.
Qed.
Lemma nth_setNth : forall {A} n (x d : A) l i, nth i (setNth n x l) d = if Nat.eqb i n && Nat.ltb n (List.length l) then x else nth i l d.
Proof.
  intros A n x d. unfold setNth. induction n as [|n IH]; intros l i.
  - destruct l as [|y l]; [destruct i; reflexivity|]. cbn. destruct i; reflexivity.
  - destruct l as [|y l]; [cbn [firstn skipn app List.length Nat.ltb Nat.leb]; rewrite andb_false_r; reflexivity|].
    cbn [firstn skipn app]. destruct i as [|i]; [reflexivity|]. cbn [nth]. rewrite IH. reflexivity.
Qed.

Lemma mapOf_put : forall i c g j, mapOf (putMap i c g) j = if Nat.eqb j i && Nat.ltb i (List.length (maps g)) then c else mapOf g j.
Proof. intros i c g j. unfold mapOf, putMap. cbn [maps]. apply nth_setNth. Qed.
Lemma put_sim : forall i c c' g g', simG g g' -> sameC c c' -> simG (putMap i c g) (putMap i c' g').
Proof.
  intros i c c' g g' [L M C B R K] S. constructor; auto.
  - cbn [putMap maps]. now rewrite !setNth_length.
  - intros j. rewrite !mapOf_put, L. destruct (_ && _); auto.
Qed.
Lemma mapOf_new : forall c g j, mapOf (snd (newMap c g)) j = if Nat.eqb j (List.length (maps g)) then c else mapOf g j.
Proof.
  intros c g j. unfold mapOf, newMap. cbn [snd maps]. destruct (Nat.eqb_spec j (List.length (maps g))) as [->|N].
  - rewrite app_nth2 by auto. now rewrite Nat.sub_diag.
  - destruct (Nat.lt_ge_cases j (List.length (maps g))) as [Q|Q]; [now rewrite app_nth1|].
    rewrite !nth_overflow; auto. rewrite app_length. cbn. lia.
Qed.
Lemma new_sim : forall c c' g g', simG g g' -> sameC c c' -> simR (newMap c g) (newMap c' g').
Proof.
  intros c c' g g' S H. pose proof S as [L M C B R K]. split; [cbn; auto|]. constructor; auto.
  - cbn [newMap snd maps]. rewrite !app_length. cbn. now rewrite L.
  - intros j. rewrite !mapOf_new, L. destruct (Nat.eqb j _); auto.
Qed.
Lemma tick_sim : forall g g', simG g g' -> simG (tick g) (tick g').
Proof. intros g g' [L M C B R K]. constructor; auto. cbn. now rewrite K. Qed.
Lemma setCur_sim : forall i g g', simG g g' -> simG (setCur i g) (setCur i g').
Proof. intros i g g' [L M C B R K]. constructor; auto. Qed.
Lemma setRnd_sim : forall rn g g', simG g g' -> simG (setRnd rn g) (setRnd rn g').
Proof. intros i g g' [L M C B R K]. constructor; auto. Qed.
Lemma read_sim : forall g g' s, simG g g' -> readS g s = readS g' s.
Proof. intros g g' s S. unfold readS. now rewrite (sim_bufs _ _ S). Qed.
Lemma newSlice_sim : forall b, simP (newSlice b) (newSlice b).
Proof.
  intros b g g' S. pose proof S as [L M C B R K]. unfold newSlice, simR. cbn [fst snd]. split; [now rewrite B|]. constructor; auto. cbn. now rewrite B.
Qed.
Lemma vectorOf_sim : forall b, simP (vectorOf b) (vectorOf b).
Proof.
  intros b g g' S. destruct (newSlice_sim b g g' S) as [E1 E2]. unfold vectorOf. destruct (newSlice b g) as [s h], (newSlice b g') as [s' h'].
  cbn [fst snd] in *. subst s'. unfold simR. cbn [fst snd]. rewrite (sim_cur _ _ E2). auto.
Qed.
Lemma emptyVec_sim : simP emptyVec emptyVec.
Proof. apply vectorOf_sim. Qed.

(** * The random source *)
Lemma Intn_sim : forall n, simP (Intn n) (Intn n).
Proof.
  intros n g g' S. unfold Intn, draw. rewrite <- (sim_rnd _ _ S). split; auto. cbn [snd]. now apply setRnd_sim.
Qed.
Lemma randRead_sim : forall n, simP (randRead n) (randRead n).
Proof.
  induction n as [|n IH]; intros g g' S; cbn [randRead]; [split; auto|].
  destruct (Intn_sim 256 g g' S) as [E1 E2]. destruct (Intn 256 g) as [b h], (Intn 256 g') as [b' h']. cbn [fst snd] in *. subst b'.
  destruct (IH h h' E2) as [F1 F2]. destruct (randRead n h) as [bs k], (randRead n h') as [bs' k']. cbn [fst snd] in *. subst bs'. split; auto.
Qed.
Lemma randLetters_sim : forall n, simP (randLetters n) (randLetters n).
Proof.
  induction n as [|n IH]; intros g g' S; cbn [randLetters]; [split; auto|].
  destruct (Intn_sim 26 g g' S) as [E1 E2]. destruct (Intn 26 g) as [b h], (Intn 26 g') as [b' h']. cbn [fst snd] in *. subst b'.
  destruct (IH h h' E2) as [F1 F2]. destruct (randLetters n h) as [bs k], (randLetters n h') as [bs' k']. cbn [fst snd] in *. subst bs'. split; auto.
Qed.
Lemma randbtw_sim : forall a b, simP (randbtw a b) (randbtw a b).
Proof.
  intros a b g g' S. unfold randbtw. destruct (Intn_sim (b - a + 1) g g' S) as [E1 E2]. destruct (Intn _ g) as [d h], (Intn _ g') as [d' h'].
  cbn [fst snd] in *. subst d'. split; auto.
Qed.
Lemma randbytes_sim : forall a b, simP (randbytes a b) (randbytes a b).
Proof.
  intros a b g g' S. unfold randbytes. destruct (randbtw_sim a b g g' S) as [E1 E2]. destruct (randbtw a b g) as [d h], (randbtw a b g') as [d' h'].
  cbn [fst snd] in *. subst d'. now apply randRead_sim.
Qed.
Lemma randnulterm_sim : forall a b, simP (randnulterm a b) (randnulterm a b).
Proof.
  intros a b g g' S. unfold randnulterm. destruct (randbtw_sim a b g g' S) as [E1 E2]. destruct (randbtw a b g) as [d h], (randbtw a b g') as [d' h'].
  cbn [fst snd] in *. subst d'. destruct (randLetters_sim (Z.to_nat d) h h' E2) as [F1 F2].
  destruct (randLetters _ h) as [bs k], (randLetters _ h') as [bs' k']. cbn [fst snd] in *. subst bs'. split; auto.
Qed.
Lemma randomIn_sim : forall fuel s, simF (randomIn fuel s) (randomIn fuel s).
Proof.
  intros fuel s g g' S. unfold randomIn. rewrite <- (sim_rnd _ _ S). apply sim_same. intros [x rn] _. split; auto. cbn [snd]. now apply setRnd_sim.
Qed.

(** * The generator *)
Section Det.
Variable grow : nat -> nat -> nat.
Variables ords ords' : nat -> uorders.
Hypothesis Hords : forall n, goodOrders (ords n).
Hypothesis Hords' : forall n, goodOrders (ords' n).
Variable sel : nat -> list vec -> list vec.
Variables r r' : resolver.
Hypothesis Hres : same_answers r r'.

Lemma appendS_sim : forall a b, simP (appendS grow a b) (appendS grow a b).
Proof.
  intros a b g g' S. pose proof S as [L M C B R K]. unfold appendS. rewrite <- B. destruct (_ <=? _)%nat; (split; [auto|]); constructor; auto; cbn [bufs snd]; now rewrite <- B.
Qed.
Lemma select_sim : forall vs, simP (select sel vs) (select sel vs).
Proof. intros vs g g' S. unfold select. rewrite <- (sim_calls _ _ S). split; auto. cbn [snd]. now apply tick_sim. Qed.
Lemma cloneMap_sim : forall i, simF (cloneMap ords i) (cloneMap ords' i).
Proof.
  intros i g g' S. unfold cloneMap. rewrite <- (sim_calls _ _ S). eapply sim_bind; [apply clone_same; auto; apply (sim_map _ _ S)|].
  intros c d H. now apply new_sim; [apply tick_sim|].
Qed.
Lemma cloneGlobalMap_sim : forall i, simF (cloneGlobalMap ords i) (cloneGlobalMap ords' i).
Proof.
  intros i g g' S. unfold cloneGlobalMap, cCloneGlobal. rewrite <- (sim_calls _ _ S). eapply sim_bind.
  - eapply sim_bind; [apply clone_same; auto; apply (sim_map _ _ S)|]. intros c d H. apply (clear_same _ _ H).
  - intros c d H. now apply new_sim; [apply tick_sim|].
Qed.
Lemma mergeMaps_sim : forall i j, simF (mergeMaps ords i j) (mergeMaps ords' i j).
Proof.
  intros i j g g' S. unfold mergeMaps. rewrite <- (sim_calls _ _ S). eapply sim_bind; [apply merge_same; auto; apply (sim_map _ _ S)|].
  intros c d H. now apply new_sim; [apply tick_sim, tick_sim|].
Qed.
Lemma lookupOrCreate_sim : forall i f v, simF (lookupOrCreate i f v) (lookupOrCreate i f v).
Proof.
  intros i f v g g' S. unfold lookupOrCreate. eapply sim_bind; [apply create_same, (sim_map _ _ S)|].
  intros [u c] [u' c'] [E H]. cbn [fst snd] in *. subst u'. split; auto. now apply put_sim.
Qed.
Lemma clearMap_sim : forall i g g', simG g g' -> simG (clearMap i g) (clearMap i g').
Proof. intros i g g' S. apply put_sim; auto. apply clear_same, (sim_map _ _ S). Qed.

Lemma crossOne_sim : forall u b, simF (crossOne grow ords u b) (crossOne grow ords' u b).
Proof.
  intros u. induction b as [|w b IH]; intros g g' S; cbn [crossOne]; [now apply sim_ok|].
  st mergeMaps_sim. rewrite (read_sim _ _ (vdata w) S0). pu (appendS_sim (vdata u) (readS h' (vdata w))) S0. st IH. now apply sim_ok.
Qed.
Lemma cross_sim : forall a b, simF (cross grow ords a b) (cross grow ords' a b).
Proof.
  induction a as [|u a IH]; intros b g g' S; cbn [cross]; [now apply sim_ok|]. st crossOne_sim. st IH. now apply sim_ok.
Qed.
Lemma arrayLoop_sim : forall elem elem', simF elem elem' -> forall n v, simF (arrayLoop grow ords sel elem n v) (arrayLoop grow ords' sel elem' n v).
Proof.
  intros elem elem' He. induction n as [|n IH]; intros v g g' S; cbn [arrayLoop]; [now apply sim_ok|].
  st He. st cross_sim. pu (select_sim a0) S1. now apply IH.
Qed.
Lemma intType_sim : forall fuel nm sz cst, simF (intType r fuel nm sz cst) (intType r' fuel nm sz cst).
Proof.
  intros fuel nm sz cst g g' S. unfold intType. eapply sim_bind with (R := simR).
  - rewrite <- (sim_cur _ _ S). destruct (sim_map _ _ S (cur g)) as (_ & _ & _ & _ & L). rewrite <- L. destruct (cLookup _ _ _) as [x|]; [now apply sim_ok|].
    destruct cst as [l|].
    + rewrite <- (Intervals_same _ _ Hres). apply sim_same. intros s _. st randomIn_sim. now apply sim_ok.
    + cbn [sameOut]. unfold randint. now apply randRead_sim.
  - intros [b h] [b' h'] [E1 S1]. cbn [fst snd] in E1, S1. subst b'. pu (vectorOf_sim b) S1. now apply sim_ok.
Qed.

Section Body.
Variable fuel : nat.
Variables callS callS' : struct -> gst -> outcome (list vec * gst).
Hypothesis Hcall : forall s, simF (callS s) (callS' s).
Variable strct : struct.

Lemma field_sim : forall t nm, simF (field grow ords sel r fuel callS nm t) (field grow ords' sel r' fuel callS' nm t).
Proof.
  induction t as [sz cst| | | |n|b IH i|b IH len]; intros nm g g' S; cbn [field].
  - now apply intType_sim.
  - now apply intType_sim.
  - pu emptyVec_sim S. now apply sim_ok.
  - pu (randnulterm_sim 2 20) S. pu (vectorOf_sim a) S0. now apply sim_ok.
  - rewrite <- (StructNonExtern_same _ _ Hres). apply sim_same. intros s _. now apply Hcall.
  - pu emptyVec_sim S. rewrite <- (Integer_same _ _ Hres). apply sim_same. intros n _. now apply arrayLoop_sim.
  - destruct len as [[f|k]|]; [|now cbn|].
    + pu emptyVec_sim S. pu (randbtw_sim 1 20) S0. st lookupOrCreate_sim. now apply arrayLoop_sim.
    + pu emptyVec_sim S. pu (randbtw_sim 1 20) S0. now apply arrayLoop_sim.
Qed.
Lemma prepend_sim : forall v mvs, simP (prepend grow v mvs) (prepend grow v mvs).
Proof.
  intros v. induction mvs as [|mv mvs IH]; intros g g' S; cbn [prepend]; [split; auto|].
  rewrite <- (read_sim _ _ (vdata v) S). destruct (appendS_sim (vdata mv) (readS g (vdata v)) g g' S) as [E1 S1].
  destruct (appendS grow _ _ g) as [d h], (appendS grow _ _ g') as [d' h']. cbn [fst snd] in *. subst d'.
  destruct (IH _ _ S1) as [E2 S2]. destruct (prepend grow v mvs h) as [l k], (prepend grow v mvs h') as [l' k']. cbn [fst snd] in *. subst l'. split; auto.
Qed.
Lemma extend_sim : forall mem mem', simF mem mem' -> forall vs, simF (extend grow mem vs) (extend grow mem' vs).
Proof.
  intros mem mem' Hm. induction vs as [|v vs IH]; intros g g' S; cbn [extend]; [now apply sim_ok|].
  pose proof (setCur_sim (vcons v) _ _ S) as S0. st Hm. pu (prepend_sim v a) S1. st IH. now apply sim_ok.
Qed.
Lemma lenconstrain_sim : forall f vs, simF (lenconstrain ords f vs) (lenconstrain ords' f vs).
Proof.
  intros f. induction vs as [|v vs IH]; intros g g' S; cbn [lenconstrain]; [now apply sim_ok|].
  st cloneMap_sim. st lookupOrCreate_sim. st IH. now apply sim_ok.
Qed.
Lemma unionLoop_sim : forall gen gen', (forall c vs, simF (gen c vs) (gen' c vs)) -> forall tag base bs,
  simF (unionLoop ords fuel gen tag base bs) (unionLoop ords' fuel gen' tag base bs).
Proof.
  intros gen gen' Hg tag base. induction bs as [|b bs IH]; intros g g' S; cbn [unionLoop]; [now apply sim_ok|].
  st cloneMap_sim. pose proof (setCur_sim a _ _ S0) as S1. st randomIn_sim. rewrite <- (sim_cur _ _ S2). st lookupOrCreate_sim. pu emptyVec_sim S3.
  st Hg. st IH. now apply sim_ok.
Qed.
Lemma gmember_sim : forall gen gen', (forall c vs, simF (gen c vs) (gen' c vs)) -> forall m,
  simF (gmember grow ords sel r fuel callS strct gen m) (gmember grow ords' sel r' fuel callS' strct gen' m).
Proof.
  intros gen gen' Hg m g g' S. destruct m as [nm t|u tag len cs| | |]; cbn [gmember].
  - now apply field_sim.
  - rewrite <- (NewBranches_same _ _ Hres). apply sim_same. intros bs _. rewrite <- (sim_cur _ _ S).
    destruct (sim_map _ _ S (cur g)) as (_ & _ & _ & _ & L). unfold cLookupRef. rewrite <- L.
    destruct (unionOptions bs _) as [opts|]; [|now apply sim_ok]. st cloneMap_sim. eapply sim_bind; [apply (unionLoop_sim _ _ Hg tag a opts); eassumption|].
    intros [res h1] [res' h1'] [E1 S1]. cbn [fst snd] in E1, S1. subst res'.
    destruct len as [[f|k]|]; [now apply lenconstrain_sim|now cbn|now apply sim_ok].
  - pu emptyVec_sim S. now apply sim_ok.
  - now apply sim_ok.
  - pu emptyVec_sim S. pu (randbytes_sim 1 7) S0. pu (vectorOf_sim a0) S1. now apply sim_ok.
Qed.
Lemma membersLoop_sim : forall mem mem', (forall m, simF (mem m) (mem' m)) -> forall ms vs,
  simF (membersLoop grow sel mem ms vs) (membersLoop grow sel mem' ms vs).
Proof.
  intros mem mem' Hm. induction ms as [|m ms IH]; intros vs g g' S; cbn [membersLoop]; [now apply sim_ok|].
  st IH. eapply sim_bind; [apply (extend_sim _ _ (Hm m)); eassumption|]. intros [e h1] [e' h1'] [E1 S1]. cbn [fst snd] in E1, S1. subst e'.
  cbn [sameOut]. now apply select_sim.
Qed.
End Body.

Lemma clears_sim : forall vs g g', simG g g' -> simG (fold_left (fun g v => clearMap (vcons v) g) vs g) (fold_left (fun g v => clearMap (vcons v) g) vs g').
Proof. induction vs as [|v vs IH]; intros g g' S; cbn [fold_left]; auto. apply IH. now apply clearMap_sim. Qed.
Lemma structureWith_sim : forall gen gen', (forall s ms vs, simF (gen s ms vs) (gen' s ms vs)) -> forall s,
  simF (structureWith ords gen s) (structureWith ords' gen' s).
Proof.
  intros gen gen' Hg s g g' S. unfold structureWith. rewrite <- (sim_cur _ _ S). st cloneGlobalMap_sim. pu (newSlice_sim []) S0. st Hg.
  split; auto. cbn [snd]. apply clears_sim. rewrite <- (sim_cur _ _ S2). now apply clearMap_sim.
Qed.
Lemma gmembers_sim : forall n s ms vs, simF (gmembers grow ords sel r n s ms vs) (gmembers grow ords' sel r' n s ms vs).
Proof.
  induction n as [|n IH]; intros s ms vs; [intros g g' S; now cbn|]. cbn [gmembers]. apply membersLoop_sim.
  intros m. apply gmember_sim; auto. now apply structureWith_sim.
Qed.
Lemma suites_sim : forall n ss, simF (suites grow ords sel r n ss) (suites grow ords' sel r' n ss).
Proof.
  intros n. induction ss as [|s ss IH]; intros g g' S; cbn [suites]; [now apply sim_ok|]. destruct (Extern s); auto.
  destruct (new_sim [] [] g g' S sameC_new) as [E1 S1]. change NewConstraints with (@nil (string * amap Z)).
  destruct (newMap [] g) as [c h], (newMap [] g') as [c' h']. cbn [fst snd] in *. subst c'. apply (setCur_sim c) in S1.
  eapply sim_bind; [unfold structure; apply structureWith_sim; [apply gmembers_sim|eassumption]|].
  intros [vs h1] [vs' h1'] [E2 S2]. cbn [fst snd] in E2, S2. subst vs'. st IH. now apply sim_ok.
Qed.
End Det.

(** The same bytes, with the same constraints. *)
Definition sameV (v w : vector) : Prop := fst v = fst w /\ sameC (snd v) (snd w).
Definition sameSuite (u w : suite) : Prop := stype u = stype w /\ Forall2 sameV (svectors u) (svectors w).

Theorem vectors_same : forall grow ords ords' sel os os' n fs rn, (forall k, goodOrders (ords k)) -> (forall k, goodOrders (ords' k)) ->
  all_valid os -> all_valid os' ->
  sameOut (Forall2 sameSuite) (GenerateFiles grow ords sel os n fs rn) (GenerateFiles grow ords' sel os' n fs rn).
Proof.
  intros grow ords ords' sel os os' n fs rn O O' V V'. unfold GenerateFiles. eapply sim_bind; [apply resolver_same; auto|].
  intros r r' S. eapply sim_bind with (R := simR).
  - apply suites_sim; auto. constructor; auto. intros i. unfold mapOf. cbn. destruct i; apply sameC_new.
  - intros [ss g] [ss' g'] [E SG]. cbn [fst snd] in E, SG. subst ss'. cbn [sameOut].
    induction ss as [|[t vs] ss IH]; constructor; auto. split; [reflexivity|]. cbn [svectors snd fst].
    clear IH. induction vs as [|v vs IH]; constructor; auto. split; [cbn; now apply read_sim|apply (sim_map _ _ SG)].
Qed.

(** * Package output *)
Lemma constrained_sim : forall vs ws, Forall2 sameV vs ws -> PkgModel.constrained vs = PkgModel.constrained ws.
Proof.
  unfold PkgModel.constrained. intros vs ws F. induction F as [|v w vs ws (_ & S) F IH]; auto. cbn [existsb]. rewrite IH. f_equal.
  destruct v as [b c], w as [b' d]. cbn [snd] in *. destruct c as [|x c]; [now rewrite (sameC_nil _ S)|]. destruct d as [|y d]; auto.
  exfalso. apply sameC_sym in S. apply sameC_nil in S. discriminate.
Qed.
Lemma datas_sim : forall vs ws, Forall2 sameV vs ws -> map fst vs = map fst ws.
Proof. intros vs ws F. induction F as [|v w vs ws (E & _) F IH]; cbn [map]; congruence. Qed.
Lemma tests_sim : forall camel c d, Forall2 sameSuite c d -> CorpusTests camel c = CorpusTests camel d.
Proof.
  intros camel c d F. unfold CorpusTests. induction F as [|u w c d (E & S) F IH]; auto. cbn [flat_map].
  rewrite IH, E, (constrained_sim _ _ S), (datas_sim _ _ S). reflexivity.
Qed.
Lemma fuzz_sim : forall camel c d, Forall2 sameSuite c d -> Fuzzers camel c = Fuzzers camel d.
Proof.
  intros camel c d F. unfold Fuzzers. induction F as [|u w c d (E & S) F IH]; auto. cbn [flat_map].
  rewrite IH, E, (constrained_sim _ _ S). reflexivity.
Qed.
Lemma writeVectors_sim : forall fails namer dir vs ws, Forall2 sameV vs ws -> forall f,
  writeVectors fails namer dir vs f = writeVectors fails namer dir ws f.
Proof.
  intros fails namer dir vs ws F. induction F as [|v w vs ws (E & S) F IH]; intros f; cbn [writeVectors]; auto.
  rewrite E. unfold andThen. destruct (fst (writeFile _ _ _ _)); auto.
Qed.
Lemma writecorpus_sim : forall fails namer base c d, Forall2 sameSuite c d -> forall f,
  writecorpus fails namer base c f = writecorpus fails namer base d f.
Proof.
  intros fails namer base c d F. induction F as [|u w c d (E & S) F IH]; intros f; cbn [writecorpus]; auto.
  rewrite E. unfold andThen. destruct (fst (mkdirAll _ _ _)); auto. rewrite (writeVectors_sim _ _ _ _ _ S). destruct (fst (writeVectors _ _ _ _ _)); auto.
Qed.
Theorem package_same : forall fails render renderTests renderFuzz namer camel dir grow ords ords' sel os1 os1' os2 os2' n rn fs f,
  (forall k, goodOrders (ords k)) -> (forall k, goodOrders (ords' k)) ->
  all_valid os1 -> all_valid os1' -> all_valid os2 -> all_valid os2' ->
  Package fails render renderTests renderFuzz namer camel dir grow ords sel os1 os2 n rn fs f =
  Package fails render renderTests renderFuzz namer camel dir grow ords' sel os1' os2' n rn fs f.
Proof.
  intros fails render renderTests renderFuzz namer camel dir grow ords ords' sel os1 os1' os2 os2' n rn fs f O O' V1 V1' V2 V2'.
  unfold Package. rewrite (marshallers_same camel os1 os1' fs V1 V1'). pose proof (vectors_same grow ords ords' sel os2 os2' n fs rn O O' V2 V2') as S.
  destruct (GenerateFiles grow ords sel os2 n fs rn) as [c|e|m|], (GenerateFiles grow ords' sel os2' n fs rn) as [d|e'|m'|]; cbn in S; try contradiction;
    [|now subst|now subst|auto].
  unfold PackageWith. destruct (bind _ render) as [b| | |]; auto. unfold given, andThen. destruct (fst (writeFile _ _ _ _)); auto.
  cbn [notImplemented]. rewrite (writecorpus_sim _ _ _ _ _ S). destruct (fst (writecorpus _ _ _ _ _)); auto.
  rewrite (tests_sim _ _ _ S), (fuzz_sim _ _ _ S). reflexivity.
Qed.
