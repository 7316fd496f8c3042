(** Goroutines that each access only what is theirs or never written: what holds
    of each of them holds of all together. *)
From Coq Require Import ZArith String List Bool Lia ZifyBool ZifyNat.
From Verif Require Import Base GoLang GoMem MemSim MemPath MemExec MemStep GoConc ConcSafe.
Import ListNotations.
Open Scope string_scope.
Open Scope list_scope.
Open Scope Z_scope.

Lemma updN_same : forall {A} (l : list A) i x y, nth_error l i = Some y -> nth_error (updN l i x) i = Some x.
Proof. induction l as [|a l IH]; intros [|i] x y E; try discriminate; cbn; auto. eapply IH; eauto. Qed.
Lemma updN_other : forall {A} (l : list A) i j x, i <> j -> nth_error (updN l i x) j = nth_error l j.
Proof. induction l as [|a l IH]; intros [|i] [|j] x N; cbn; auto; try congruence. Qed.
Lemma updN_len : forall {A} (l : list A) i x, List.length (updN l i x) = List.length l.
Proof. induction l as [|a l IH]; intros [|i] x; cbn; auto. Qed.

Section Pool.
Variable pl : platform.
Variable types : amap (list (string * gtype)).
Variable ro : loc -> Prop.
Variable Posts : nat -> list loc -> heap -> hres -> Prop.

Record inv (P : pool) (Ms : nat -> list loc) : Prop := {
  i_safe : forall i t, nth_error (snd P) i = Some t -> safe ro pl types (Posts i) t (Ms i) (fst P);
  i_bound : forall i l, (i < List.length (snd P))%nat -> In l (Ms i) -> (l < List.length (fst P))%nat;
  i_ro : forall i l, (i < List.length (snd P))%nat -> In l (Ms i) -> ~ ro l;
  i_apart : forall i j l, i <> j -> (i < List.length (snd P))%nat -> (j < List.length (snd P))%nat -> In l (Ms i) -> In l (Ms j) -> False;
  i_old : forall l, ro l -> (l < List.length (fst P))%nat }.

(** What one goroutine does leaves the others safe. *)
Lemma inv_update : forall H ts Ms i t1 H2 M2, inv (H, ts) Ms -> (i < List.length ts)%nat -> grows H (Ms i) H2 M2 -> safe ro pl types (Posts i) t1 M2 H2 ->
  inv (H2, updN ts i t1) (fun k => if (k =? i)%nat then M2 else Ms k).
Proof.
  intros H ts Ms i t1 H2 M2 [S B R D O] L [(X1 & X2 & X3) XB] S1. cbn [fst snd] in *.
  assert (B2 : bound M2 H2) by (apply XB; intros l I; eauto).
  constructor; cbn [fst snd]; try rewrite updN_len.
  - intros k t E. destruct (Nat.eqb_spec k i) as [->|N].
    + destruct (nth_error ts i) as [y|] eqn:Y; [|apply nth_error_None in Y; lia]. rewrite (updN_same _ _ _ _ Y) in E. injection E as <-. exact S1.
    + rewrite updN_other in E by auto. assert (LK : (k < List.length ts)%nat) by (apply nth_error_Some; congruence).
      eapply safe_stable; [apply S; exact E|]. split; [exact X1|]. intros l [I|I].
      * apply X2; [eapply B; eauto|]. intros J. eapply (D k i); eauto.
      * apply X2; [auto|]. intros J. exact (R i l L J I).
  - intros k l LK I. destruct (Nat.eqb_spec k i) as [->|N]; [now apply B2|]. specialize (B _ _ LK I). lia.
  - intros k l LK I Q. destruct (Nat.eqb_spec k i) as [->|N]; [|eapply R; eauto]. destruct (X3 _ I) as [J|J]; [eapply R; eauto|]. specialize (O _ Q). lia.
  - intros a b l N LA LB IA IB. destruct (Nat.eqb_spec a i) as [->|NA], (Nat.eqb_spec b i) as [->|NB]; try congruence.
    + destruct (X3 _ IA) as [J|J]; [eapply (D i b); eauto|]. specialize (B _ _ LB IB). lia.
    + destruct (X3 _ IB) as [J|J]; [eapply (D i a); eauto|]. specialize (B _ _ LA IA). lia.
    + eapply (D a b); eauto.
  - intros l Q. specialize (O _ Q). lia.
Qed.

(** What may have changed in memory. *)
Definition changes (A : loc -> Prop) (H H1 : heap) : Prop :=
  (List.length H <= List.length H1)%nat /\ forall l, (l < List.length H)%nat -> ~ A l -> nth_error H1 l = nth_error H l.

Lemma inv_step : forall P Q Ms, inv P Ms -> pstep pl types P Q ->
  exists Ms', inv Q Ms' /\ List.length (snd Q) = List.length (snd P) /\ changes (fun l => exists i, (i < List.length (snd P))%nat /\ In l (Ms i)) (fst P) (fst Q) /\
    (forall i l, (i < List.length (snd P))%nat -> In l (Ms' i) -> In l (Ms i) \/ (List.length (fst P) <= l)%nat).
Proof.
  intros P Q Ms V ST. inversion ST as [H ts i t H1 t1 E TS]; subst. cbn [fst snd]. assert (L : (i < List.length ts)%nat) by (apply nth_error_Some; congruence).
  assert (K : exists M2, grows H (Ms i) H1 M2 /\ safe ro pl types (Posts i) t1 M2 H1).
  { pose proof (i_safe _ _ V i t E) as S. cbn [fst] in S. destruct t as [res|e x k|e l v k|q k]; cbn [tstep] in TS; [discriminate| | |]; injection TS as TS; cbn [safe] in S;
      specialize (S H (stable_refl _ _ _)).
    - destruct S as (_ & _ & v & H2 & M2 & EV & X & S). rewrite EV in TS. cbn [resume] in TS. injection TS as <- <-. eauto.
    - destruct S as (_ & _ & e2 & H2 & M2 & EV & X & S). rewrite EV in TS. cbn [resume] in TS. injection TS as <- <-. eauto.
    - destruct S as (ty & f & EV & S). rewrite EV in TS. injection TS as <- <-. exists (Ms i). split; auto using grows_refl. }
  destruct K as (M2 & G & S1). exists (fun k => if (k =? i)%nat then M2 else Ms k). split; [eapply inv_update; eauto|]. split; [apply updN_len|].
  destruct G as [(X1 & X2 & X3) _]. split; [split; auto|].
  - intros l LL NA. apply X2; auto. intros I. apply NA. eauto.
  - intros k l LK I. destruct (Nat.eqb_spec k i) as [->|N]; auto.
Qed.
Lemma inv_steps : forall P Q, psteps pl types P Q -> forall Ms, inv P Ms ->
  exists Ms', inv Q Ms' /\ List.length (snd Q) = List.length (snd P) /\ changes (fun l => exists i, (i < List.length (snd P))%nat /\ In l (Ms i)) (fst P) (fst Q) /\
    (forall i l, (i < List.length (snd P))%nat -> In l (Ms' i) -> In l (Ms i) \/ (List.length (fst P) <= l)%nat).
Proof.
  intros P Q S. induction S as [P|P Q R S IH ST]; intros Ms V.
  - exists Ms. split; auto. split; auto. split; auto. split; auto.
  - destruct (IH Ms V) as (M1 & V1 & L1 & [C1 C2] & G1). destruct (inv_step _ _ _ V1 ST) as (M2 & V2 & L2 & [D1 D2] & G2). exists M2.
    split; auto. split; [congruence|]. split; [split; [lia|]|].
    + intros l LL NA. rewrite D2; [apply C2; auto|lia|]. intros (i & LI & I). rewrite L1 in LI. destruct (G1 _ _ LI I) as [J|J]; [apply NA; eauto|lia].
    + intros i l LI I. rewrite L1 in G2. destruct (G2 _ _ LI I) as [J|J]; [auto|right; lia].
Qed.

(** What is safe does not race. *)
Lemma safe_touches : forall i P Ms t, inv P Ms -> nth_error (snd P) i = Some t ->
  mayRead ro (Ms i) (stepReads pl types (fst P) t) /\ mayWrite (Ms i) (stepWrites pl types (fst P) t).
Proof.
  intros i P Ms t V E. pose proof (i_safe _ _ V i t E) as S. destruct t as [res|e x k|e l v k|q k]; cbn [stepReads stepWrites]; try (split; intros ? []; fail);
    cbn [safe] in S; destruct (S (fst P) (stable_refl _ _ _)) as (A & B & _); auto.
Qed.
Theorem inv_race : forall P Ms, inv P Ms -> ~ race pl types P.
Proof.
  intros P Ms V (i & j & t & u & l & N & Ei & Ej & W & RW).
  assert (Li : (i < List.length (snd P))%nat) by (apply nth_error_Some; congruence).
  assert (Lj : (j < List.length (snd P))%nat) by (apply nth_error_Some; congruence).
  destruct (safe_touches i P Ms t V Ei) as [_ Wi]. destruct (safe_touches j P Ms u V Ej) as [Rj Wj]. specialize (Wi _ W). destruct RW as [R|R].
  - destruct (Rj _ R) as [I|I]; [eapply (i_apart _ _ V i j); eauto|eapply (i_ro _ _ V i); eauto].
  - specialize (Wj _ R). eapply (i_apart _ _ V i j); eauto.
Qed.
End Pool.

(** Every goroutine ends, so all do, however they are interleaved. *)
Section Ends.
Variable pl : platform.
Variable types : amap (list (string * gtype)).

Inductive smaller : thread -> thread -> Prop :=
| sm_eval e x k v : smaller (k v) (TEval e x k)
| sm_store e l v k e1 : smaller (k e1) (TStore e l v k)
| sm_type q k ty : smaller (k ty) (TType q k)
| sm_eval_end e x k r : smaller (TEnd r) (TEval e x k)
| sm_store_end e l v k r : smaller (TEnd r) (TStore e l v k)
| sm_type_end q k r : smaller (TEnd r) (TType q k).
Lemma smaller_acc : forall t, Acc smaller t.
Proof.
  assert (E : forall r, Acc smaller (TEnd r)) by (intros r; constructor; intros y S; inversion S).
  induction t as [r|e x k IH|e l v k IH|q k IH]; constructor; intros y S; inversion S; subst; auto.
Qed.
Lemma step_smaller : forall H t H1 t1, tstep pl types H t = Some (H1, t1) -> smaller t1 t.
Proof.
  intros H t H1 t1 E. destruct t as [r|e x k|e l v k|q k]; cbn [tstep] in E; [discriminate| | |]; injection E as E.
  - destruct (heval pl types H e x) as [[v H2]| | |]; cbn [resume] in E; injection E as <- <-; constructor.
  - destruct (hstore pl types H e l v) as [[H2 e2]| | |]; cbn [resume] in E; injection E as <- <-; constructor.
  - destruct (nth_error H q) as [[|ty f]|]; injection E as <- <-; constructor.
Qed.

Inductive oneSmaller : list thread -> list thread -> Prop :=
| os_here t1 t ts : smaller t1 t -> oneSmaller (t1 :: ts) (t :: ts)
| os_there t ts1 ts : oneSmaller ts1 ts -> oneSmaller (t :: ts1) (t :: ts).
Lemma one_acc : forall ts, Acc oneSmaller ts.
Proof.
  induction ts as [|t ts IH]; [constructor; intros y S; inversion S|].
  revert ts IH. induction (smaller_acc t) as [t _ IHt]. intros ts IH. induction IH as [ts IHa IHs]. constructor. intros y S. inversion S; subst.
  - apply IHt; auto. constructor. exact IHa.
  - apply IHs. exact H1.
Qed.
Lemma upd_one : forall ts i t t1, nth_error ts i = Some t -> smaller t1 t -> oneSmaller (updN ts i t1) ts.
Proof. induction ts as [|a ts IH]; intros [|i] t t1 E S; try discriminate; cbn in *; [injection E as ->; now constructor|constructor; eauto]. Qed.
Theorem pool_ends : forall P, Acc (fun Q P => pstep pl types P Q) P.
Proof.
  intros [H ts]. revert H. induction (one_acc ts) as [ts _ IH]. intros H. constructor. intros Q S. inversion S as [H' ts' i t H1 t1 E TS]; subst.
  apply IH. eapply upd_one; eauto. eapply step_smaller; eauto.
Qed.
(** Those that have not ended can go on. *)
Theorem can_step : forall H ts i t, nth_error ts i = Some t -> (forall r, t <> TEnd r) -> exists Q, pstep pl types (H, ts) Q.
Proof.
  intros H ts i t E N. destruct t as [r|e x k|e l v k|q k]; [destruct (N r); auto| | |].
  - destruct (tstep pl types H (TEval e x k)) as [[H1 t1]|] eqn:S; [|discriminate]. exists (H1, updN ts i t1). econstructor; eauto.
  - destruct (tstep pl types H (TStore e l v k)) as [[H1 t1]|] eqn:S; [|discriminate]. exists (H1, updN ts i t1). econstructor; eauto.
  - destruct (tstep pl types H (TType q k)) as [[H1 t1]|] eqn:S; [|discriminate]. exists (H1, updN ts i t1). econstructor; eauto.
Qed.
End Ends.
