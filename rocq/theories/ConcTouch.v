(** The accesses of GoConc.v are all there are: a step changes only what it writes
    and new objects, and what it does depends only on the contents of what it
    reads or writes. *)
From Coq Require Import ZArith String List Bool Lia ZifyBool ZifyNat.
From Verif Require Import Base GoLang GoMem GenSimBody MemSim GoConc.
Import ListNotations.
Open Scope string_scope.
Open Scope list_scope.
Open Scope Z_scope.

(** Memories with the same objects, as far as types tell: these are known when
    compiling. *)
Definition alike (a b : option obj) : Prop :=
  match a, b with
  | None, None | Some (OArray _), Some (OArray _) => True
  | Some (OStruct t _), Some (OStruct u _) => t = u
  | _, _ => False
  end.
Definition sameTypes (H H' : heap) : Prop := forall l, alike (nth_error H l) (nth_error H' l).
(** Memory was [H] or [H'] and is [H1] or [H1']: where it was the same it is the same. *)
Definition inStep (H H' H1 H1' : heap) : Prop :=
  sameTypes H1 H1' /\ (forall l, nth_error H' l = nth_error H l -> nth_error H1' l = nth_error H1 l).

Lemma types_len : forall H H', sameTypes H H' -> List.length H' = List.length H.
Proof.
  intros H H' S. destruct (Nat.lt_trichotomy (List.length H) (List.length H')) as [L|[L|L]]; auto; exfalso.
  - specialize (S (List.length H)). rewrite (proj2 (nth_error_None H _)) in S by lia. destruct (nth_error H' (List.length H)) eqn:E; [exact S|]. apply nth_error_None in E. lia.
  - specialize (S (List.length H')). rewrite (proj2 (nth_error_None H' _)) in S by lia. destruct (nth_error H (List.length H')) as [[|]|] eqn:E; try exact S. apply nth_error_None in E. lia.
Qed.
Lemma alike_refl : forall a, alike a a.
Proof. intros [[|]|]; cbn; auto. Qed.
Lemma inStep_refl : forall H H', sameTypes H H' -> inStep H H' H H'.
Proof. intros. split; auto. Qed.
Lemma inStep_trans : forall H H' H1 H1' H2 H2', inStep H H' H1 H1' -> inStep H1 H1' H2 H2' -> inStep H H' H2 H2'.
Proof. intros H H' H1 H1' H2 H2' [A B] [C D]. split; auto. Qed.
Lemma inStep_alloc : forall H H' o, sameTypes H H' -> List.length H' = List.length H /\ inStep H H' (H ++ [o]) (H' ++ [o]).
Proof.
  intros H H' o S. pose proof (types_len _ _ S) as L. split; auto.
  assert (K : forall l, (l < List.length H)%nat \/ nth_error (H' ++ [o]) l = nth_error (H ++ [o]) l).
  { intros l. destruct (Nat.lt_ge_cases l (List.length H)); auto. right. rewrite !nth_error_app2 by lia. now rewrite L. }
  split; intros l; destruct (K l) as [Q|Q].
  - rewrite !nth_error_app1 by lia. apply S.
  - rewrite Q. apply alike_refl.
  - intros E. rewrite !nth_error_app1 by lia. exact E.
  - auto.
Qed.
Lemma inStep_set : forall H H' p o, sameTypes H H' -> alike (Some o) (nth_error H p) -> inStep H H' (hset p o H) (hset p o H').
Proof.
  intros H H' p o S A. pose proof (types_len _ _ S) as L. unfold hset. split; intros l; rewrite !updN_nth, L.
  - destruct (l =? p)%nat; [apply alike_refl|apply S].
  - intros E. destruct (l =? p)%nat; auto.
Qed.

Section Machine.
Variable pl : platform.
Variable types : amap (list (string * gtype)).
Notation heval := (heval pl types).
Notation hstore := (hstore pl types).
Notation reads := (reads pl types).
Notation writes := (writes pl types).

(* ---------- what is changed ---------- *)

Definition kept (W : list loc) (H H1 : heap) : Prop :=
  (List.length H <= List.length H1)%nat /\ forall l, (l < List.length H)%nat -> ~ In l W -> nth_error H1 l = nth_error H l.
Lemma kept_refl : forall W H, kept W H H.
Proof. intros. split; auto. Qed.
Lemma kept_alloc : forall W H o, kept W H (H ++ [o]).
Proof. intros. split; [rewrite app_length; lia|]. intros l L _. now apply nth_error_app1. Qed.
Lemma kept_set : forall W H p o, In p W -> kept W H (hset p o H).
Proof. intros W H p o I. split; [rewrite hset_length; lia|]. intros l L N. apply hset_other. intros ->. contradiction. Qed.
Lemma kept_app : forall W W' H H1 H2, kept W H H1 -> kept W' H1 H2 -> kept (W ++ W') H H2.
Proof.
  intros W W' H H1 H2 [A B] [C D]. split; [lia|]. intros l L N. rewrite D, B; auto; try lia; intros I; apply N, in_or_app; auto.
Qed.
Lemma kept_more : forall W W' H H1, kept W H H1 -> (forall l, In l W -> In l W') -> kept W' H H1.
Proof. intros W W' H H1 [A B] S. split; auto. Qed.

Ltac oks := repeat match goal with
  | E : bind ?x _ = Ok _ |- _ => let q := fresh "q" in let v := fresh "v" in let h := fresh "h" in destruct x as [[v h]| | |] eqn:q; cbn [bind] in E; try discriminate E
  end.
Ltac cases E := repeat match type of E with
  | match ?x with _ => _ end = Ok _ => destruct x eqn:?; try discriminate E
  end.

Theorem heval_writes : forall x H e v H1, heval H e x = Ok (v, H1) -> kept (writes H e x) H H1.
Proof.
  induction x; intros H e v H1 E; cbn [GoMem.heval GoConc.writes] in *.
  - injection E as <- <-. apply kept_refl.
  - destruct (alookup x e); [injection E as <- <-; apply kept_refl|discriminate].
  - oks. cases E. injection E as <- <-. eapply IHx; eauto.
  - oks. eapply kept_app; [eapply IHx1; eauto|]. assert (H1 = h0) as -> by (cases E; injection E; auto). eapply IHx2; eauto.
  - oks. assert (H1 = h) as -> by (cases E; injection E; auto). eapply IHx; eauto.
  - oks. assert (H1 = h) as -> by (cases E; injection E; auto). eapply IHx; eauto.
  - destruct o; try (oks; eapply kept_app; [eapply IHx1; eauto|]; assert (H1 = h0) as -> by (cases E; injection E; auto); eapply IHx2; eauto; fail).
    + oks. eapply kept_app; [eapply IHx1; eauto|]. destruct v0; try discriminate E. destruct b; [|injection E as <- <-; apply kept_refl]. oks.
      assert (H1 = h0) as -> by (cases E; injection E; auto). eapply IHx2; eauto.
    + oks. eapply kept_app; [eapply IHx1; eauto|]. destruct v0; try discriminate E. destruct b; [injection E as <- <-; apply kept_refl|]. oks.
      assert (H1 = h0) as -> by (cases E; injection E; auto). eapply IHx2; eauto.
  - oks. assert (H1 = h) as -> by (cases E; injection E; auto). eapply IHx; eauto.
  - eapply IHx; eauto.
  - oks. assert (H1 = h) as -> by (cases E; injection E; auto). eapply IHx; eauto.
  - oks. eapply kept_app; [eapply IHx1; eauto|]. assert (H1 = h0) as -> by (cases E; injection E; auto). eapply IHx2; eauto.
  - oks. eapply kept_app; [eapply IHx1; eauto|]. assert (H1 = h0) as -> by (cases E; injection E; auto). eapply IHx2; eauto.
  - oks. assert (H1 = h) as -> by (cases E; injection E; auto). eapply IHx; eauto.
  - oks. assert (H1 = h) as -> by (cases E; injection E; auto). eapply IHx; eauto.
  - oks. assert (H1 = h) as -> by (cases E; injection E; auto). eapply IHx; eauto.
  - injection E as <- <-. apply kept_alloc.
  - oks. destruct v0; try discriminate E. unfold alloc in E. cases E. injection E as <- <-. eapply kept_more; [eapply kept_app; [eapply IHx; eauto|apply (kept_alloc [])]|].
    intros l I. now rewrite app_nil_r in I.
  - unfold alloc in E. cases E. injection E as <- <-. apply kept_alloc.
  - oks. eapply kept_app; [eapply IHx1; eauto|]. eapply kept_app; [eapply IHx2; eauto|].
    destruct v0; try discriminate E.
    + destruct (nth_error h0 base) as [[l|]|]; try discriminate E. destruct (len <? cap)%nat.
      * injection E as <- <-. apply kept_set. now left.
      * cbn [alloc] in E. injection E as <- <-. apply kept_alloc.
    + cbn [alloc] in E. injection E as <- <-. apply kept_alloc.
  - injection E as <- <-. apply kept_refl.
  - injection E as <- <-. apply kept_refl.
  - discriminate.
Qed.

(** The same for storing. *)
Theorem hstore_writes : forall l H e v H1 e1, hstore H e l v = Ok (H1, e1) -> kept (storeWrites pl types H e l) H H1.
Proof.
  induction l; intros H e v H1 e1 E; cbn [GoMem.hstore GoConc.storeWrites] in *.
  - destruct (alookup x e); [injection E as <- <-; apply kept_refl|discriminate].
  - oks. destruct v0; try discriminate E. cases E. injection E as <- <-. eapply kept_app; [eapply heval_writes; eauto|]. apply kept_set. now left.
  - oks. eapply kept_app; [eapply heval_writes; eauto|]. eapply kept_app; [eapply heval_writes; eauto|]. destruct v0; try discriminate E.
    + cases E. injection E as <- <-. apply kept_set. now left.
    + destruct v1; try discriminate E. cases E. eapply IHl; eauto.
    + cases E.
Qed.

(* ---------- what it depends on ---------- *)

(** The outcome [b] is the outcome [a], in another memory. *)
Definition same {A} (H H' : heap) (a b : outcome (A * heap)) : Prop :=
  match a with
  | Ok (v, H1) => exists H1', b = Ok (v, H1') /\ inStep H H' H1 H1'
  | Err m => b = Err m
  | Panic m => b = Panic m
  | OutOfFuel => b = OutOfFuel
  end.
Lemma same_bind : forall {A B} H H' (a a' : outcome (A * heap)) (k k' : A * heap -> outcome (B * heap)), same H H' a a' ->
  (forall v H1 H1', a = Ok (v, H1) -> inStep H H' H1 H1' -> same H H' (k (v, H1)) (k' (v, H1'))) -> same H H' (bind a k) (bind a' k').
Proof.
  intros A B H H' a a' k k' S K. destruct a as [[v H1]|m|m|]; cbn in S; [destruct S as (H1' & -> & I); now apply K| | |]; subst; reflexivity.
Qed.
Lemma same_ok : forall {A} H H' (v : A) H1 H1', inStep H H' H1 H1' -> same H H' (Ok (v, H1)) (Ok (v, H1')).
Proof. intros. cbn. eauto. Qed.
Lemma same_trans : forall {A} H H' H1 H1' (a b : outcome (A * heap)), inStep H H' H1 H1' -> same H1 H1' a b -> same H H' a b.
Proof. intros A H H' H1 H1' a b I S. destruct a as [[v H2]| | |]; auto. destruct S as (H2' & E & J). exists H2'. split; auto. eapply inStep_trans; eauto. Qed.

Definition agreeOn (L : list loc) (H H' : heap) : Prop := forall l, In l L -> nth_error H' l = nth_error H l.
Lemma agree_app : forall L M H H', agreeOn (L ++ M) H H' -> agreeOn L H H' /\ agreeOn M H H'.
Proof. intros L M H H' A. split; intros l I; apply A, in_or_app; auto. Qed.
Lemma agree_step : forall L H H' H1 H1', agreeOn L H H' -> inStep H H' H1 H1' -> agreeOn L H1 H1'.
Proof. intros L H H' H1 H1' A [_ B] l I. auto. Qed.

Lemma elements_same : forall H H' b o n c, agreeOn (sliceReads (HSlice b o n c)) H H' -> elements H' b o n = elements H b o n.
Proof.
  intros H H' b o n c A. unfold elements. destruct n as [|n].
  - destruct (nth_error H' b) as [[|]|], (nth_error H b) as [[|]|]; reflexivity.
  - rewrite A; auto. now left.
Qed.
Lemma bytesOf_same : forall H H' v, agreeOn (sliceReads v) H H' -> bytesOf H' v = bytesOf H v.
Proof. intros H H' v A. destruct v; try reflexivity. cbn [bytesOf]. now rewrite (elements_same _ _ _ _ _ _ A). Qed.

Lemma same_const : forall {A} H H' (o : outcome (A * heap)), (forall v H1, o <> Ok (v, H1)) -> same H H' o o.
Proof. intros A H H' [[v H1]| | |] N; try reflexivity. destruct (N v H1). reflexivity. Qed.
Ltac bad := apply same_const; intros; discriminate.

Lemma agree_incl : forall L M H H', agreeOn M H H' -> (forall l, In l L -> In l M) -> agreeOn L H H'.
Proof. intros L M H H' A S l I. auto. Qed.
Ltac sub := intros; repeat rewrite in_app_iff in *; tauto.
Ltac fin := repeat match goal with |- same _ _ (match ?x with _ => _ end) _ => destruct x end; try bad; try (apply same_ok, inStep_refl; assumption).

Ltac one0 ONE x S A v H1 H1' E S1 A1 :=
  cbn [GoConc.reads GoConc.writes] in A; eapply (ONE x); [eassumption|exact S|exact A|sub|];
  intros v H1 H1' E S1 A1; rewrite ?E in A1.
Theorem heval_depends : forall x H H' e, sameTypes H H' -> agreeOn (reads H e x ++ writes H e x) H H' -> same H H' (heval H e x) (heval H' e x).
Proof.
  assert (ONE : forall (x : expr) H H' e (L : list loc) (k : hval -> heap -> outcome (hval * heap)),
    (forall H H' e, sameTypes H H' -> agreeOn (reads H e x ++ writes H e x) H H' -> same H H' (heval H e x) (heval H' e x)) -> sameTypes H H' ->
    agreeOn L H H' -> (forall l, In l (reads H e x ++ writes H e x) -> In l L) ->
    (forall v H1 H1', heval H e x = Ok (v, H1) -> sameTypes H1 H1' -> agreeOn L H1 H1' -> same H1 H1' (k v H1) (k v H1')) ->
    same H H' (bind (heval H e x) (fun '(v, H1) => k v H1)) (bind (heval H' e x) (fun '(v, H1) => k v H1))).
  { intros x H H' e L k IH S A SB K. apply same_bind; [apply IH; auto; eapply agree_incl; eauto|]. intros v H1 H1' E I. eapply same_trans; [exact I|].
    apply K; auto; [apply I|eapply agree_step; eauto]. }
  induction x; intros H H' e S A.
  - apply same_ok, inStep_refl; auto.
  - cbn [GoMem.heval]. fin.
  - cbn [GoMem.heval]. one0 ONE x S A v H1 H1' E S1 A1. destruct v; try bad. rewrite (A1 p); [fin|]. rewrite !in_app_iff. cbn. tauto.
  - cbn [GoMem.heval]. one0 ONE x1 S A v H1 H1' E S1 A1. one0 ONE x2 S1 A1 w H2 H2' E2 S2 A2. destruct v; try (fin; fail). destruct w; try bad.
    rewrite (elements_same H2 H2' base off len cap); [fin|]. eapply agree_incl; [exact A2|]. sub.
  - cbn [GoMem.heval]. one0 ONE x S A v H1 H1' E S1 A1. fin.
  - cbn [GoMem.heval]. one0 ONE x S A v H1 H1' E S1 A1. fin.
  - destruct o; cbn [GoMem.heval]; one0 ONE x1 S A v H1 H1' E S1 A1; try (one0 ONE x2 S1 A1 w H2 H2' E2 S2 A2; fin; fail).
    + destruct v; try bad. destruct b; [|fin]. one0 ONE x2 S1 A1 w H2 H2' E2 S2 A2. fin.
    + destruct v; try bad. destruct b; [fin|]. one0 ONE x2 S1 A1 w H2 H2' E2 S2 A2. fin.
  - cbn [GoMem.heval]. one0 ONE x S A v H1 H1' E S1 A1. fin.
  - cbn [GoMem.heval]. apply IHx; auto.
  - cbn [GoMem.heval]. one0 ONE x S A v H1 H1' E S1 A1. fin.
  - cbn [GoMem.heval]. one0 ONE x1 S A v H1 H1' E S1 A1. one0 ONE x2 S1 A1 w H2 H2' E2 S2 A2. fin.
  - cbn [GoMem.heval]. one0 ONE x1 S A v H1 H1' E S1 A1. one0 ONE x2 S1 A1 w H2 H2' E2 S2 A2. fin.
  - cbn [GoMem.heval]. one0 ONE x S A v H1 H1' E S1 A1. rewrite (bytesOf_same H1 H1' v); [fin|]. eapply agree_incl; [exact A1|]. sub.
  - cbn [GoMem.heval]. one0 ONE x S A v H1 H1' E S1 A1. rewrite (bytesOf_same H1 H1' v); [fin|]. eapply agree_incl; [exact A1|]. sub.
  - cbn [GoMem.heval]. one0 ONE x S A v H1 H1' E S1 A1. rewrite (bytesOf_same H1 H1' v); [fin|]. eapply agree_incl; [exact A1|]. sub.
  - cbn [GoMem.heval alloc]. destruct (inStep_alloc H H' (OArray []) S) as [-> I]. apply same_ok; auto.
  - cbn [GoMem.heval]. one0 ONE x S A v H1 H1' E S1 A1. destruct v; try bad. match goal with |- same _ _ (if ?c then _ else _) _ => destruct c; [bad|] end. cbn [alloc].
    destruct (inStep_alloc H1 H1' (OArray (repeat (hzero t) (Z.to_nat z))) S1) as [-> I]. apply same_ok; auto.
  - cbn [GoMem.heval]. destruct (alookup n types) as [fs|]; [|bad]. cbn [alloc]. destruct (inStep_alloc H H' (OStruct n (hzeros fs)) S) as [-> I]. apply same_ok; auto.
  - cbn [GoMem.heval]. one0 ONE x1 S A v H1 H1' E S1 A1. one0 ONE x2 S1 A1 w H2 H2' E2 S2 A2. destruct v; try bad.
    + destruct (len <? cap)%nat eqn:LC.
      * rewrite (A2 base); [|rewrite !in_app_iff; cbn; tauto]. pose proof (S2 base) as SB. destruct (nth_error H2 base) as [[l|]|] eqn:NB; try bad. apply same_ok, inStep_set; auto.
        rewrite NB. exact I.
      * destruct len as [|len].
        -- pose proof (S2 base) as SB. destruct (nth_error H2 base) as [[l|]|], (nth_error H2' base) as [[l'|]|]; try contradiction; try bad. cbn [alloc firstn app].
           match goal with |- context [H2 ++ [?o]] => destruct (inStep_alloc H2 H2' o S2) as [-> J]; apply same_ok; auto end.
        -- rewrite (A2 base); [|rewrite !in_app_iff; cbn; tauto]. destruct (nth_error H2 base) as [[l|]|] eqn:NB; try bad. cbn [alloc].
           match goal with |- context [H2 ++ [?o]] => destruct (inStep_alloc H2 H2' o S2) as [-> J]; apply same_ok; auto end.
    + cbn [alloc]. match goal with |- context [H2 ++ [?o]] => destruct (inStep_alloc H2 H2' o S2) as [-> J]; apply same_ok; auto end.
  - apply same_ok, inStep_refl; auto.
  - apply same_ok, inStep_refl; auto.
  - bad.
Qed.

Theorem hstore_depends : forall l H H' e v, sameTypes H H' -> agreeOn (storeReads pl types H e l ++ storeWrites pl types H e l) H H' ->
  match hstore H e l v with
  | Ok (H1, e1) => exists H1', hstore H' e l v = Ok (H1', e1) /\ inStep H H' H1 H1'
  | o => hstore H' e l v = o
  end.
Proof.
  induction l; intros H H' e v S A; cbn [GoMem.hstore].
  - destruct (alookup x e); [exists H'; split; auto; now apply inStep_refl|reflexivity].
  - cbn [storeReads storeWrites] in A. assert (D := heval_depends (lexpr l) H H' e S). destruct (heval H e (lexpr l)) as [[w H1]| | |] eqn:E; cbn [bind same] in *.
    2-4: rewrite D; [reflexivity|]; eapply agree_incl; [exact A|]; sub.
    destruct D as (H1' & -> & I1). { eapply agree_incl; [exact A|]. sub. } cbn [bind]. destruct w; try reflexivity.
    assert (AP : nth_error H1' p = nth_error H1 p). { apply I1, A. rewrite !in_app_iff. cbn. tauto. } rewrite AP.
    destruct (nth_error H1 p) as [[|ty fs]|] eqn:NP; try reflexivity. destruct (alookup f fs); [|reflexivity]. eexists. split; [reflexivity|].
    eapply inStep_trans; [exact I1|]. apply inStep_set; [apply I1|]. rewrite NP. reflexivity.
  - cbn [storeReads storeWrites] in A. assert (D := heval_depends (lexpr l) H H' e S). destruct (heval H e (lexpr l)) as [[w H1]| | |] eqn:E; cbn [bind same] in *.
    2-4: rewrite D; [reflexivity|]; eapply agree_incl; [exact A|]; sub.
    destruct D as (H1' & -> & I1). { eapply agree_incl; [exact A|]. sub. } cbn [bind].
    assert (D := heval_depends i H1 H1' e (proj1 I1)). assert (AI : agreeOn (reads H1 e i ++ writes H1 e i) H1 H1').
    { eapply agree_step; [|exact I1]. eapply agree_incl; [exact A|]. sub. } specialize (D AI).
    destruct (heval H1 e i) as [[k H2]| | |] eqn:E2; cbn [bind same] in *; try (now rewrite D).
    destruct D as (H2' & -> & I2). cbn [bind]. pose proof (inStep_trans _ _ _ _ _ _ I1 I2) as I12.
    destruct w; try reflexivity; destruct k; try reflexivity.
    + assert (AP : nth_error H2' base = nth_error H2 base). { apply I12, A. rewrite !in_app_iff. cbn. tauto. } rewrite AP.
      destruct (nth_error H2 base) as [[xs|]|] eqn:NP; try reflexivity. destruct ((0 <=? z) && (z <? Z.of_nat len)); [|reflexivity]. eexists. split; [reflexivity|].
      eapply inStep_trans; [exact I12|]. apply inStep_set; [apply I12|]. rewrite NP. reflexivity.
    + destruct (nthZ l0 z); [|reflexivity]. assert (D := IHl H2 H2' e (HArr (updN l0 (Z.to_nat z) v)) (proj1 I12)).
      assert (A2 : agreeOn (storeReads pl types H2 e l ++ storeWrites pl types H2 e l) H2 H2'). { eapply agree_step; [|exact I12]. eapply agree_incl; [exact A|]. sub. }
      specialize (D A2). destruct (hstore H2 e l _) as [[H3 e3]| | |]; auto. destruct D as (H3' & -> & I3). eexists. split; [reflexivity|]. eapply inStep_trans; eauto.
Qed.
End Machine.
