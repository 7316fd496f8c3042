(** The engine run on the compiled grammar computes the functions of
    [PegDescent]. *)
From Coq Require Import ZArith String Ascii List Bool Lia ZifyBool ZifyNat.
From Verif Require Import Base Ast PegModel PegGrammar PegEngine PegRunes PegDescent PegConsume.
Import ListNotations.
Open Scope string_scope.
Open Scope list_scope.
Open Scope Z_scope.

Definition isReal (e : perr) : bool := match e with EEncoding => false | _ => true end.
Definition real (l : list perr) : list perr := filter isReal l.

(** Corresponding states; encoding errors are not seen by the descent. *)
Record srel (s : pst) (d : dst) : Prop := {
  r_rest : drest d = runes (rest s);
  r_ling : ling s = map VStruct (dling d);
  r_errs : real (errs s) = derrs d }.

Lemma real_app : forall a b, real (a ++ b) = real a ++ real b.
Proof. intros. apply filter_app. Qed.

Lemma srel_restored : forall s d s' er, srel s d -> rest s' = rest s -> ling s' = ling s ->
  real (errs s') = er -> srel s' (mkD (drest d) (dling d) er).
Proof. intros s d s' er [A B C] H1 H2 H3. split; cbn; congruence. Qed.

Section Refine.
  (** Bound on the number of runes left. *)
  Notation runsG := (runs g).

  Definition body (N : nat) {A} (e : expr) (p : P A) (V : A -> value -> Prop) : Prop :=
    forall s d, srel s d -> (len d <= N)%nat ->
    match p d with
    | Done a d' => exists v f' s', runsG e [] s (true, v, f', s') /\ srel s' d' /\ V a v
    | Fail er => exists f' s', runsG e [] s (false, VNil, f', s') /\ real (errs s') = er
    end.

  Definition part (N : nat) {A} (e : expr) (p : P A) (V : A -> value -> Prop) : Prop :=
    forall f s d, srel s d -> (len d <= N)%nat ->
    match p d with
    | Done a d' => exists v s', runsG e f s (true, v, f, s') /\ srel s' d' /\ V a v
    | Fail er => exists s', runsG e f s (false, VNil, f, s') /\ real (errs s') = er
    end.

  Definition seqs (N : nat) {A} (es : list expr) (f : frame) (p : P A)
             (Q : A -> dst -> frame -> list value -> Prop) : Prop :=
    forall s d, srel s d -> (len d <= N)%nat ->
    match p d with
    | Done a d' => exists vs f' s', runsSeq g es f s (true, vs, f', s') /\ srel s' d' /\ Q a d' f' vs
    | Fail er => exists vs f' s', runsSeq g es f s (false, vs, f', s') /\ real (errs s') = er
    end.

  Lemma part_body : forall N A e (p : P A) V, part N e p V -> body N e p V.
  Proof.
    intros N A e p V H s d R L. specialize (H [] s d R L). destruct (p d).
    - destruct H as (s' & H1 & H2). eauto.
    - destruct H as (v & s' & H). eauto.
  Qed.

  Lemma body_weaken : forall N N' A e (p : P A) V, (N' <= N)%nat -> body N e p V -> body N' e p V.
  Proof. intros N N' A e p V HN H s d R L. apply H; auto. lia. Qed.
  Lemma part_weaken : forall N N' A e (p : P A) V, (N' <= N)%nat -> part N e p V -> part N' e p V.
  Proof. intros N N' A e p V HN H f s d R L. apply H; auto. lia. Qed.

  Lemma body_conseq : forall N A e (p : P A) (V W : A -> value -> Prop),
    (forall a v, V a v -> W a v) -> body N e p V -> body N e p W.
  Proof.
    intros N A e p V W HV H s d R L. specialize (H s d R L). destruct (p d); auto.
    destruct H as (v & f' & s' & H1 & H2 & H3). exists v, f', s'. auto.
  Qed.

  (** Failing runs leave the state in place. *)
  Lemma run_fail : forall e f s v f' s' d er, runsG e f s (false, v, f', s') -> srel s d ->
    real (errs s') = er -> srel s' (mkD (drest d) (dling d) er).
  Proof.
    intros e f s v f' s' d er [n H] R E. destruct (failure_restores _ _ _ _ _ _ _ _ H) as [A B].
    eapply srel_restored; eauto.
  Qed.

  Lemma run_len : forall e f s ok v f' s' d d', runsG e f s (ok, v, f', s') -> srel s d -> srel s' d' ->
    (len d' <= len d)%nat.
  Proof.
    intros e f s ok v f' s' d d' [n H] R R'. apply run_moved in H.
    destruct (m_runes _ _ H) as (t & S & _). apply steps_runes in S.
    unfold len. rewrite (r_rest _ _ R), (r_rest _ _ R'), S, app_length. lia.
  Qed.

  (** ** Expressions *)
  Lemma part_rule : forall N A name e (p : P A) V, alookup name g = Some e ->
    body N e p V -> part N (ERule name) p V.
  Proof.
    intros N A name e p V L H f s d R Ln. specialize (H s d R Ln). destruct (p d).
    - destruct H as (f' & s' & H1 & H2). exists s'. split; auto. eapply runs_rule; eauto.
    - destruct H as (v & f' & s' & H1 & H2). exists v, s'. split; auto. eapply runs_rule; eauto.
  Qed.

  (** Choices: the alternatives in order. *)
  Definition alts (N : nat) {A} (es : list expr) (p : P A) (V : A -> value -> Prop) : Prop :=
    forall f s d, srel s d -> (len d <= N)%nat ->
    match p d with
    | Done a d' => exists v s', runsAlts g es f s (true, v, f, s') /\ srel s' d' /\ V a v
    | Fail er => exists s', runsAlts g es f s (false, VNil, f, s') /\ real (errs s') = er
    end.

  Lemma part_choice : forall N A es (p : P A) V, alts N es p V -> part N (EChoice es) p V.
  Proof.
    intros N A es p V H f s d R L. specialize (H f s d R L). destruct (p d).
    - destruct H as (s' & H1 & H2). exists s'. split; auto. apply runs_choice; auto.
    - destruct H as (v & s' & H1 & H2). exists v, s'. split; auto. apply runs_choice; auto.
  Qed.

  Lemma alts_one : forall N A e (p : P A) V, body N e p V -> alts N [e] p V.
  Proof.
    intros N A e p V H f s d R L. specialize (H s d R L). destruct (p d).
    - destruct H as (f' & s' & H1 & H2). exists (restoreState (ling s) s'). split; auto.
      eapply alts_next; [exact H1|]. apply alts_nil.
    - destruct H as (v & f' & s' & H1 & H2). exists v, s'. split; auto. eapply alts_first; eauto.
  Qed.

  Lemma alts_or : forall N A e es (p q : P A) V, body N e p V -> alts N es q V -> alts N (e :: es) (p <|> q) V.
  Proof.
    intros N A e es p q V Hp Hq f s d R L. specialize (Hp s d R L). unfold orElse. destruct (p d).
    - destruct Hp as (f' & s' & H1 & H2).
      pose proof (run_fail _ _ _ _ _ _ _ _ H1 R H2) as R'.
      assert (R2 : srel (restoreState (ling s) s') (mkD (drest d) (dling d) er)).
      { destruct R' as [X Y Z]. split; cbn in *; auto. apply R. }
      specialize (Hq f _ _ R2 L). destruct (q _).
      + destruct Hq as (s'' & Q1 & Q2). exists s''. split; auto. eapply alts_next; eauto.
      + destruct Hq as (v & s'' & Q1 & Q2). exists v, s''. split; auto. eapply alts_next; eauto.
    - destruct Hp as (v & f' & s' & H1 & H2). exists v, s'. split; auto. eapply alts_first; eauto.
  Qed.

  Lemma alts_conseq : forall N A B e (p : P A) (h : A -> B) (V : A -> value -> Prop) (W : B -> value -> Prop),
    (forall a v, V a v -> W (h a) v) -> body N e p V -> body N e (x <-- p ;; ret (h x)) W.
  Proof.
    intros N A B e p h V W HV H s d R L. specialize (H s d R L). unfold andThen. destruct (p d); auto.
    destruct H as (v & f' & s' & H1 & H2 & H3). exists v, f', s'. auto.
  Qed.

  (** Sequences. *)
  Lemma seqs_nil : forall N A (a : A) f (Q : A -> dst -> frame -> list value -> Prop), (forall d, Q a d f []) -> seqs N [] f (ret a) Q.
  Proof. intros N A a f Q H s d R L. cbn. exists [], f, s. split; [apply seq_nil|auto]. Qed.

  Lemma seqs_label : forall N A B l e es f (p : P A) (k : A -> P B) V Q, l <> "" ->
    body N e p V ->
    (forall a v, V a v -> seqs N es (ainsert l v f) (k a) (fun b d f' vs => Q b d f' (v :: vs))) ->
    seqs N (ELabel l e :: es) f (andThen p k) Q.
  Proof.
    intros N A B l e es f p k V Q Hl Hp Hk s d R L. specialize (Hp s d R L). unfold andThen.
    destruct (p d) as [er|a d1].
    - destruct Hp as (f' & s' & H1 & H2).
      pose proof (runs_label g l e f s false VNil f' s' Hl H1) as X. cbn in X.
      exists [], f, s'. split; auto. eapply seq_fail; eauto.
    - destruct Hp as (v & f' & s' & H1 & H2 & H3).
      pose proof (runs_label g l e f s true v f' s' Hl H1) as X. cbn in X.
      pose proof (run_len _ _ _ _ _ _ _ _ _ H1 R H2) as Ln.
      specialize (Hk a v H3 s' d1 H2 ltac:(lia)). destruct (k a d1).
      + destruct Hk as (vs & f2 & s2 & K1 & K2). exists (v :: vs), f2, s2. split; auto.
        eapply seq_cons; eauto.
      + destruct Hk as (vs & f2 & s2 & K1 & K2 & K3). exists (v :: vs), f2, s2. split; auto.
        eapply seq_cons; eauto.
  Qed.

  Lemma seqs_part : forall N A B e es f (p : P A) (k : A -> P B) V Q,
    part N e p V ->
    (forall a v, V a v -> seqs N es f (k a) (fun b d f' vs => Q b d f' (v :: vs))) ->
    seqs N (e :: es) f (andThen p k) Q.
  Proof.
    intros N A B e es f p k V Q Hp Hk s d R L. specialize (Hp f s d R L). unfold andThen.
    destruct (p d) as [er|a d1].
    - destruct Hp as (s' & H1 & H2). exists [], f, s'. split; auto. eapply seq_fail; eauto.
    - destruct Hp as (v & s' & H1 & H2 & H3).
      pose proof (run_len _ _ _ _ _ _ _ _ _ H1 R H2) as Ln.
      specialize (Hk a v H3 s' d1 H2 ltac:(lia)). destruct (k a d1).
      + destruct Hk as (vs & f2 & s2 & K1 & K2). exists (v :: vs), f2, s2. split; auto.
        eapply seq_cons; eauto.
      + destruct Hk as (vs & f2 & s2 & K1 & K2 & K3). exists (v :: vs), f2, s2. split; auto.
        eapply seq_cons; eauto.
  Qed.

  (** After a part that consumes something, less is left. *)
  Lemma seqs_eats : forall N A B e es f (p : P A) (k : A -> P B) V Q, eatsSome p ->
    part N e p V ->
    (forall M a v, N = S M -> V a v -> seqs M es f (k a) (fun b d f' vs => Q b d f' (v :: vs))) ->
    seqs N (e :: es) f (andThen p k) Q.
  Proof.
    intros N A B e es f p k V Q He Hp Hk s d R L. specialize (Hp f s d R L). unfold andThen.
    destruct (p d) as [er|a d1] eqn:E.
    - destruct Hp as (s' & H1 & H2). exists [], f, s'. split; auto. eapply seq_fail; eauto.
    - destruct Hp as (v & s' & H1 & H2 & H3). apply He in E. destruct N as [|M]; [lia|].
      specialize (Hk M a v eq_refl H3 s' d1 H2 ltac:(lia)). destruct (k a d1).
      + destruct Hk as (vs & f2 & s2 & K1 & K2). exists (v :: vs), f2, s2. split; auto.
        eapply seq_cons; eauto.
      + destruct Hk as (vs & f2 & s2 & K1 & K2 & K3). exists (v :: vs), f2, s2. split; auto.
        eapply seq_cons; eauto.
  Qed.
  Lemma seqs_label_eats : forall N A B l e es f (p : P A) (k : A -> P B) V Q, l <> "" -> eatsSome p ->
    body N e p V ->
    (forall M a v, N = S M -> V a v -> seqs M es (ainsert l v f) (k a) (fun b d f' vs => Q b d f' (v :: vs))) ->
    seqs N (ELabel l e :: es) f (andThen p k) Q.
  Proof.
    intros N A B l e es f p k V Q Hl He Hp Hk s d R L. specialize (Hp s d R L). unfold andThen.
    destruct (p d) as [er|a d1] eqn:E.
    - destruct Hp as (f' & s' & H1 & H2).
      pose proof (runs_label g l e f s false VNil f' s' Hl H1) as X. cbn in X.
      exists [], f, s'. split; auto. eapply seq_fail; eauto.
    - destruct Hp as (v & f' & s' & H1 & H2 & H3).
      pose proof (runs_label g l e f s true v f' s' Hl H1) as X. cbn in X.
      apply He in E. destruct N as [|M]; [lia|].
      specialize (Hk M a v eq_refl H3 s' d1 H2 ltac:(lia)). destruct (k a d1).
      + destruct Hk as (vs & f2 & s2 & K1 & K2). exists (v :: vs), f2, s2. split; auto.
        eapply seq_cons; eauto.
      + destruct Hk as (vs & f2 & s2 & K1 & K2 & K3). exists (v :: vs), f2, s2. split; auto.
        eapply seq_cons; eauto.
  Qed.

  Lemma body_seq : forall N A es (p : P A) V,
    seqs N es [] p (fun a _ _ vs => V a (VSlice vs)) -> body N (ESeq es) p V.
  Proof.
    intros N A es p V H s d R L. specialize (H s d R L). destruct (p d).
    - destruct H as (vs & f' & s' & H1 & H2). eexists _, _. split; [eapply runs_seq_fail; exact H1|].
      exact H2.
    - destruct H as (vs & f' & s' & H1 & H2 & H3). eexists _, _, _. split; [eapply runs_seq; exact H1|].
      auto.
  Qed.

  (** An action on a sequence: the value is that of the action on the frame. *)
  Lemma body_act : forall N A run es (p : P A) V,
    seqs N es [] p (fun a d f _ => forall t, exists v, run t f (map VStruct (dling d)) = Ok (v, None) /\ V a v) ->
    body N (EAct run (ESeq es)) p V.
  Proof.
    intros N A run es p V H s d R L. specialize (H s d R L). destruct (p d).
    - destruct H as (vs & f' & s' & H1 & H2). eexists _, _. split.
      + eapply runs_act_fail. eapply runs_seq_fail; exact H1.
      + exact H2.
    - destruct H as (vs & f' & s' & H1 & H2 & H3).
      destruct (H3 (sliceFrom (rest s) (rest s'))) as (v & E & HV).
      eexists _, _, _. split.
      + eapply runs_act with (er := None); [eapply runs_seq; exact H1|].
        rewrite (r_ling _ _ H2). exact E.
      + cbn [optErr]. auto.
  Qed.

  (** An action on another expression, which must set the labels itself. *)
  Lemma body_act_label : forall N A B run l e (p : P A) (h : A -> B) V W, l <> "" ->
    body N e p V ->
    (forall a v t st, V a v -> exists v', run t [(l, v)] st = Ok (v', None) /\ W (h a) v') ->
    body N (EAct run (ELabel l e)) (x <-- p ;; ret (h x)) W.
  Proof.
    intros N A B run l e p h V W Hl Hp Hr s d R L. specialize (Hp s d R L). unfold andThen.
    destruct (p d).
    - destruct Hp as (f' & s' & H1 & H2). eexists _, _. split; [|exact H2].
      apply runs_act_fail. apply (runs_label g l e [] s false VNil f' s' Hl H1).
    - destruct Hp as (v & f' & s' & H1 & H2 & H3).
      destruct (Hr a v (sliceFrom (rest s) (rest s')) (ling s') H3) as (v' & E & HW).
      eexists _, _, _. split.
      + eapply runs_act with (er := None).
        * apply (runs_label g l e [] s true v f' s' Hl H1).
        * exact E.
      + cbn [optErr ret]. auto.
  Qed.

  Lemma body_act_plain : forall N A B run e (p : P A) (h : A -> B) V W,
    part N e p V ->
    (forall a v t st, V a v -> exists v', run t [] st = Ok (v', None) /\ W (h a) v') ->
    body N (EAct run e) (x <-- p ;; ret (h x)) W.
  Proof.
    intros N A B run e p h V W Hp Hr s d R L. specialize (Hp [] s d R L). unfold andThen.
    destruct (p d).
    - destruct Hp as (s' & H1 & H2). eexists _, _. split; [|exact H2].
      apply runs_act_fail. eauto.
    - destruct Hp as (v & s' & H1 & H2 & H3).
      destruct (Hr a v (sliceFrom (rest s) (rest s')) (ling s') H3) as (v' & E & HW).
      eexists _, _, _. split.
      + eapply runs_act with (er := None); eauto.
      + cbn [optErr ret]. auto.
  Qed.

  Lemma part_opt : forall N A e (p : P A) V,
    body N e p V -> part N (EOpt e) (opt p) (fun o v => match o with Some a => V a v | None => v = VNil end).
  Proof.
    intros N A e p V H f s d R L. specialize (H s d R L). unfold opt. destruct (p d).
    - destruct H as (f' & s' & H1 & H2). exists VNil, s'. split; [eapply runs_opt; eauto|].
      split; auto. eapply run_fail; eauto.
    - destruct H as (v & f' & s' & H1 & H2). exists v, s'. split; auto. eapply runs_opt; eauto.
  Qed.

  Lemma part_star : forall N A e (p : P A) V, eatsSome p ->
    body N e p V -> part N (EStar e) (many p) (fun l v => exists vs, v = VSlice vs /\ Forall2 V l vs).
  Proof.
    intros N A e p V He H f s d R L.
    assert (K : forall n s d, srel s d -> (len d <= N)%nat -> (len d <= n)%nat ->
      exists l d' vs s', many p d = Done l d' /\ runsLoop g e s (true, vs, s') /\ srel s' d' /\ Forall2 V l vs).
    { induction n as [|n IH]; intros s1 d1 R1 L1 L2; specialize (H s1 d1 R1 L1); rewrite many_eq by auto;
        destruct (p d1) eqn:E.
      1, 3: destruct H as (f' & s' & H1 & H2); eexists _, _, _, _; split; [reflexivity|];
        split; [eapply loop_end; eauto|]; split; [eapply run_fail; eauto|constructor].
      - apply He in E. lia.
      - apply He in E. destruct H as (v & f' & s' & H1 & H2 & H3).
        destruct (IH s' d0 H2 ltac:(lia) ltac:(lia)) as (l & d' & vs & s2 & E2 & Hl & R2 & F2).
        rewrite E2. eexists _, _, _, _. split; [reflexivity|].
        split; [eapply loop_next; eauto|]. split; auto. }
    destruct (K (len d) s d R L ltac:(lia)) as (l & d' & vs & s' & E & Hl & R' & F).
    rewrite E. eexists _, _. split; [eapply runs_star; exact Hl|]. split; auto. exists vs. auto.
  Qed.

  Lemma part_plus : forall N A e (p : P A) V, eatsSome p ->
    body N e p V -> part N (EPlus e) (x <-- p ;; l <-- many p ;; ret tt)
                         (fun _ v => exists vs, v = VSlice vs).
  Proof.
    intros N A e p V He H f s d R L. unfold andThen. pose proof (H s d R L) as H0.
    destruct (p d) eqn:E.
    - destruct H0 as (f' & s' & H1 & H2). exists s'. split; auto. eapply runs_plus_fail; eauto.
    - destruct H0 as (v & f' & s' & H1 & H2 & H3). apply He in E.
      assert (K : forall n s d, srel s d -> (len d <= N)%nat -> (len d <= n)%nat ->
        exists l d' vs s', many p d = Done l d' /\ runsLoop g e s (true, vs, s') /\ srel s' d').
      { induction n as [|n IH]; intros s1 d1 R1 L1 L2; specialize (H s1 d1 R1 L1); rewrite many_eq by auto;
          destruct (p d1) eqn:E1.
        1, 3: destruct H as (f1 & s2 & Ha & Hb); eexists _, _, _, _; split; [reflexivity|];
          split; [eapply loop_end; eauto|]; eapply run_fail; eauto.
        - apply He in E1. lia.
        - apply He in E1. destruct H as (v1 & f1 & s2 & Ha & Hb & Hc).
          destruct (IH s2 d2 Hb ltac:(lia) ltac:(lia)) as (l & d' & vs & s3 & E2 & Hl & R2).
          rewrite E2. eexists _, _, _, _. split; [reflexivity|].
          split; [eapply loop_next; eauto|]. auto. }
      destruct (K (len d0) s' d0 H2 ltac:(lia) ltac:(lia)) as (l & d' & vs & s2 & E2 & Hl & R2).
      rewrite E2. cbn [ret]. eexists _, _. split.
      + eapply runs_plus. eapply loop_next; eauto.
      + split; eauto.
  Qed.

  Lemma part_not : forall N A e (p : P A) V, body N e p V -> part N (ENot e) (notP p) (fun _ _ => True).
  Proof.
    intros N A e p V H f s d R L. specialize (H s d R L). unfold notP. destruct (p d).
    - destruct H as (f' & s' & H1 & H2). exists VNil. eexists. split; [eapply runs_not with (ok := false); exact H1|].
      split; auto. eapply srel_restored; eauto.
    - destruct H as (v & f' & s' & H1 & H2 & H3). eexists. split; [eapply runs_not with (ok := true); exact H1|].
      cbn. apply H2.
  Qed.

  (** ** Matching runes *)
  Lemma decode_ascii : forall c t, byte c < 128 -> DecodeRune (c :: t) = (byte c, 1%nat).
  Proof. intros c t H. unfold DecodeRune. destruct (byte c <? 128) eqn:E; auto. lia. Qed.

  Lemma decode_small : forall t, fst (DecodeRune t) < 128 -> exists c t', t = c :: t' /\ byte c < 128 /\ fst (DecodeRune t) = byte c.
  Proof.
    intros [|c0 t]; unfold DecodeRune, cont, inR, RuneError; [cbn [fst]; lia|].
    intros H. exists c0, t. split; auto. destruct (byte c0 <? 128) eqn:E; [split; auto; lia|]. exfalso.
    revert H. pose proof (byte_range c0). cbv zeta.
    destruct t as [|c1 [|c2 [|c3 t]]];
      repeat match goal with
      | |- context [match ?x with true => _ | false => _ end] => destruct x eqn:?
      end; cbn [fst];
      repeat match goal with
      | H : context [match ?x with true => _ | false => _ end] |- _ => destruct x eqn:?
      end; lia.
  Qed.

  Lemma byte_inj : forall a b, byte a = byte b -> a = b.
  Proof.
    intros a b H. unfold byte in H. apply N2Z.inj in H.
    rewrite <- (ascii_N_embedding a), <- (ascii_N_embedding b), H. reflexivity.
  Qed.

  Lemma item_ascii : forall c t, byte c < 128 -> itemOf (c :: t) = byte c.
  Proof.
    intros c t H. unfold itemOf, invalid. rewrite decode_ascii by auto. cbn [fst].
    pose proof (byte_range c). destruct ((byte c =? RuneError) && (1 =? 1)%nat) eqn:E; auto.
    unfold RuneError in E. lia.
  Qed.

  Lemma invalid_rune : forall t, invalid t = true -> fst (DecodeRune t) = RuneError.
  Proof. intros t H. unfold invalid in H. destruct (DecodeRune t). cbn. lia. Qed.

  Lemma read_rel : forall s d c r, srel s d -> drest d = c :: r -> srel (read s) (mkD r (dling d) (derrs d)).
  Proof.
    intros s d c r [A B C] E. split; cbn.
    - rewrite read_runes, <- A, E. reflexivity.
    - rewrite read_ling. exact B.
    - rewrite read_errs. destruct (invalid _); auto. rewrite real_app. cbn. rewrite app_nil_r. auto.
  Qed.

  Lemma rest_cons : forall s d c r, srel s d -> drest d = c :: r ->
    rest s <> [] /\ c = itemOf (rest s).
  Proof.
    intros s d c r [A _ _] E. rewrite E in A.
    assert (N : rest s <> []) by (intros X; rewrite X in A; discriminate).
    rewrite runes_cons in A by auto. inversion A. auto.
  Qed.

  Definition plainClass (chars : list Z) (ranges : list (Z * Z)) : bool :=
    negb (inClass chars ranges (-1)) && negb (inClass chars ranges RuneError).

  Lemma part_class : forall N chars ranges, plainClass chars ranges = true ->
    part N (EClass chars ranges) (cls chars ranges) (fun _ v => exists t, v = VBytes t).
  Proof.
    intros N chars ranges PC f s d R L. unfold cls.
    pose proof (runs_class g chars ranges f s) as X. unfold parseClass in X.
    destruct (drest d) as [|c r] eqn:E.
    - assert (E2 : rest s = []) by (apply runes_empty; rewrite <- (r_rest _ _ R); auto).
      rewrite (proj2 (atEnd_spec s) E2) in X. exists s. split; auto. apply R.
    - destruct (rest_cons s d c r R E) as [N1 Ec].
      destruct (atEnd s) eqn:AE; [apply atEnd_spec in AE; contradiction|].
      assert (IC : inClass chars ranges (rune s) = inClass chars ranges c).
      { subst c. unfold itemOf, rune. destruct (invalid (rest s)) eqn:I; auto.
        rewrite (invalid_rune _ I). unfold plainClass in PC.
        destruct (inClass chars ranges (-1)), (inClass chars ranges RuneError); try discriminate. auto. }
      rewrite IC in X. destruct (inClass chars ranges c).
      + eexists _, _. split; [exact X|]. split; [eapply read_rel; eauto|]. eauto.
      + exists s. split; auto. apply R.
  Qed.

  Lemma part_any : forall N, part N EAny any (fun _ v => exists t, v = VBytes t).
  Proof.
    intros N f s d R L. unfold any.
    pose proof (runs_any g f s) as X. unfold parseAny in X.
    destruct (drest d) as [|c r] eqn:E.
    - assert (E2 : rest s = []) by (apply runes_empty; rewrite <- (r_rest _ _ R); auto).
      rewrite (proj2 (atEnd_spec s) E2) in X. exists s. split; auto. apply R.
    - destruct (rest_cons s d c r R E) as [N1 Ec].
      destruct (atEnd s) eqn:AE; [apply atEnd_spec in AE; contradiction|].
      eexists _, _. split; [exact X|]. split; [eapply read_rel; eauto|]. eauto.
  Qed.

  Definition asciiText (t : text) : bool := forallb (fun c => byte c <? 128) t.

  Lemma litLoop_rel : forall w s d, asciiText w = true -> srel s d ->
    match stripPrefix (map byte w) (drest d) with
    | Some r => exists s', litLoop w s = (true, s') /\ srel s' (mkD r (dling d) (derrs d)) /\ rest s = w ++ rest s'
    | None => exists s', litLoop w s = (false, s') /\ real (errs s') = derrs d
    end.
  Proof.
    induction w as [|c w IH]; intros s d HA R; cbn [map stripPrefix litLoop].
    - exists s. split; auto. split; auto. destruct d. exact R.
    - cbn [asciiText forallb] in HA. apply andb_prop in HA. destruct HA as [Hc HA].
      destruct (drest d) as [|x r] eqn:E.
      + assert (E2 : rest s = []) by (apply runes_empty; rewrite <- (r_rest _ _ R); auto).
        unfold rune. rewrite E2. cbn [DecodeRune fst].
        destruct (RuneError =? byte c) eqn:Q; [unfold RuneError in Q; lia|].
        exists s. split; auto. apply R.
      + destruct (rest_cons s d x r R E) as [N1 Ec].
        destruct (x =? byte c) eqn:Q.
        * assert (Qx : x = byte c) by lia.
          assert (I : invalid (rest s) = false).
          { apply item_good. rewrite <- Ec. unfold good. pose proof (byte_range c). lia. }
          assert (Q2 : rune s = byte c).
          { unfold rune. rewrite <- Qx, Ec. unfold itemOf. rewrite I. reflexivity. }
          rewrite Q2, Z.eqb_refl.
          specialize (IH (read s) (mkD r (dling d) (derrs d)) HA (read_rel _ _ _ _ R E)). cbn [drest dling derrs] in IH.
          destruct (stripPrefix (map byte w) r).
          -- destruct IH as (s' & I1 & I2 & I3). exists s'. split; auto. split; auto.
             destruct (decode_small (rest s)) as (c' & t' & T1 & T2 & T3).
             { fold (rune s). rewrite Q2. lia. }
             rewrite read_rest in I3. rewrite T1 in I3 |- *. rewrite decode_ascii in I3 by auto.
             cbn [snd skipn] in I3. rewrite I3. cbn [app]. f_equal.
             apply byte_inj. fold (rune s) in T3. congruence.
          -- exact IH.
        * assert (Q2 : (rune s =? byte c) = false).
          { apply Z.eqb_neq. intros Y. unfold rune in Y.
            assert (itemOf (rest s) = byte c); [|lia].
            destruct (decode_small (rest s)) as (c' & t' & T1 & T2 & T3); [lia|].
            rewrite T1. rewrite item_ascii by auto. congruence. }
          rewrite Q2. exists s. split; auto. apply R.
  Qed.

  Lemma slice_app : forall a b, sliceFrom (a ++ b) b = a.
  Proof.
    intros a b. unfold sliceFrom. rewrite app_length.
    replace (length a + length b - length b)%nat with (length a) by lia.
    rewrite firstn_app. rewrite firstn_all. replace (length a - length a)%nat with 0%nat by lia.
    cbn. apply app_nil_r.
  Qed.

  Lemma part_lit : forall N x, asciiText (textOf x) = true ->
    part N (ELit x) (lit x) (fun _ v => v = VBytes (textOf x)).
  Proof.
    intros N x HA f s d R L. unfold lit, codes.
    pose proof (runs_lit g x f s) as X. unfold parseLit in X.
    pose proof (litLoop_rel (textOf x) s d HA R) as H.
    destruct (stripPrefix (map byte (textOf x)) (drest d)).
    - destruct H as (s' & H1 & H2 & H3). rewrite H1 in X. eexists _, _. split; [exact X|].
      split; auto. rewrite H3, slice_app. reflexivity.
    - destruct H as (s' & H1 & H2). rewrite H1 in X. eexists. split; [exact X|]. exact H2.
  Qed.

  (** ** Texts of identifiers and literals *)
  Definition asciiRune (c : Z) : Prop := 0 <= c < 128.
  Definition eatsAscii {A} (p : P A) : Prop :=
    forall d a d', p d = Done a d' -> exists t, drest d = t ++ drest d' /\ Forall asciiRune t.

  Lemma steps_ascii : forall cs t t', steps cs t t' -> Forall asciiRune cs -> t = fromCodes cs ++ t'.
  Proof.
    induction 1 as [t|t cs t' H S IH]; intros F; auto.
    inversion F as [|x y Hx Hy]; subst. unfold asciiRune in Hx.
    unfold itemOf in *. destruct (invalid t) eqn:I; [lia|].
    destruct (decode_small t) as (c & t1 & T1 & T2 & T3); [lia|].
    rewrite T3 in *. unfold fromCodes. cbn [map app].
    rewrite T1 in IH |- *. rewrite decode_ascii in IH by auto. cbn [snd skipn] in IH.
    rewrite (IH Hy). f_equal.
    unfold byte. rewrite N2Z.id, ascii_N_embedding. reflexivity.
  Qed.

  Lemma body_text : forall N A run e (p : P A) V (mk : list Z -> value) , body N e p V -> eatsAscii p ->
    (forall cs f st, Forall asciiRune cs -> run (fromCodes cs) f st = Ok (mk cs, None)) ->
    body N (EAct run e) (texted p) (fun cs v => v = mk cs).
  Proof.
    intros N A run e p V mk Hp Ha Hr s d R L. specialize (Hp s d R L). unfold texted.
    destruct (p d) eqn:E.
    - destruct Hp as (f' & s' & H1 & H2). eexists _, _. split; [|exact H2]. apply runs_act_fail. eauto.
    - destruct Hp as (v & f' & s' & H1 & H2 & H3). destruct (Ha _ _ _ E) as (t & T1 & T2).
      assert (T3 : firstn (length (drest d) - length (drest d0)) (drest d) = t).
      { rewrite T1, app_length. replace (length t + length (drest d0) - length (drest d0))%nat with (length t) by lia.
        rewrite firstn_app, firstn_all. replace (length t - length t)%nat with 0%nat by lia. cbn. apply app_nil_r. }
      rewrite T3. destruct H1 as [n H1]. pose proof (run_moved _ _ _ _ _ _ _ _ _ H1) as M.
      destruct (m_runes _ _ M) as (cs & S & _).
      assert (cs = t).
      { pose proof (steps_runes _ _ _ S) as S2. rewrite <- (r_rest _ _ R), <- (r_rest _ _ H2) in S2.
        rewrite T1 in S2. eapply app_inv_tail; eauto. }
      subst cs. apply steps_ascii in S; auto.
      eexists _, _, _. split.
      + eapply runs_act with (er := None); [exists n; exact H1|].
        rewrite S at 1. rewrite slice_app. apply Hr; auto.
      + cbn [optErr]. auto.
  Qed.

  (** The same for an action that can return an error. *)
  Lemma body_number : forall N A B run e (p : P A) (h : list Z -> B) V (W : B -> value -> Prop) (mk : list Z -> value * option aerr),
    body N e p V -> eatsAscii p ->
    (forall cs f st, Forall asciiRune cs -> run (fromCodes cs) f st = Ok (mk cs)) ->
    (forall cs, W (h cs) (fst (mk cs))) ->
    body N (EAct run e) (t <-- texted p ;; record_ (snd (mk t)) ;;; ret (h t)) W.
  Proof.
    intros N A B run e p h V W mk Hp Ha Hr Hw s d R L. specialize (Hp s d R L). unfold texted, andThen.
    destruct (p d) eqn:E.
    - destruct Hp as (f' & s' & H1 & H2). eexists _, _. split; [|exact H2]. apply runs_act_fail. eauto.
    - destruct Hp as (v & f' & s' & H1 & H2 & H3). destruct (Ha _ _ _ E) as (t & T1 & T2).
      assert (T3 : firstn (length (drest d) - length (drest d0)) (drest d) = t).
      { rewrite T1, app_length. replace (length t + length (drest d0) - length (drest d0))%nat with (length t) by lia.
        rewrite firstn_app, firstn_all. replace (length t - length t)%nat with 0%nat by lia. cbn. apply app_nil_r. }
      rewrite T3. destruct H1 as [n H1]. pose proof (run_moved _ _ _ _ _ _ _ _ _ H1) as M.
      destruct (m_runes _ _ M) as (cs & S & _).
      assert (cs = t).
      { pose proof (steps_runes _ _ _ S) as S2. rewrite <- (r_rest _ _ R), <- (r_rest _ _ H2) in S2.
        rewrite T1 in S2. eapply app_inv_tail; eauto. }
      subst cs. apply steps_ascii in S; auto. cbn [record_ ret].
      specialize (Hw t). destruct (mk t) as [w er] eqn:K.
      eexists _, _, _. split.
      + eapply runs_act with (er := er); [exists n; exact H1|].
        rewrite S at 1. rewrite slice_app. rewrite Hr by auto. rewrite K. reflexivity.
      + cbn [fst snd]. split; auto. destruct er as [x|]; cbn [optErr]; auto.
        destruct H2 as [X Y Z0]. split; cbn; auto. rewrite real_app, Z0. reflexivity.
  Qed.

  Lemma body_map : forall N A B e (p : P A) (h : A -> B) (V : A -> value -> Prop) (W : B -> value -> Prop),
    (forall a v, V a v -> W (h a) v) -> body N e p V -> body N e (x <-- p ;; ret (h x)) W.
  Proof. exact alts_conseq. Qed.
  Lemma part_map : forall N A B e (p : P A) (h : A -> B) (V : A -> value -> Prop) (W : B -> value -> Prop),
    (forall a v, V a v -> W (h a) v) -> part N e p V -> part N e (x <-- p ;; ret (h x)) W.
  Proof.
    intros N A B e p h V W HV H f s d R L. specialize (H f s d R L). unfold andThen. destruct (p d); auto.
    destruct H as (v & s' & H1 & H2 & H3). exists v, s'. auto.
  Qed.

  Lemma body_pass : forall N A l e (p : P A) V, l <> "" -> body N e p V ->
    body N (EAct (pass l) (ELabel l e)) p V.
  Proof.
    intros N A l e p V Hl Hp s d R L. specialize (Hp s d R L). destruct (p d).
    - destruct Hp as (f' & s' & H1 & H2). eexists _, _. split; [|exact H2].
      apply runs_act_fail. apply (runs_label g l e [] s false VNil f' s' Hl H1).
    - destruct Hp as (v & f' & s' & H1 & H2 & H3).
      eexists _, _, _. split.
      + eapply runs_act with (er := None) (v' := v).
        * apply (runs_label g l e [] s true v f' s' Hl H1).
        * unfold pass, give, label. cbn [ainsert alookup]. rewrite String.eqb_refl. reflexivity.
      + cbn [optErr]. auto.
  Qed.

  Lemma seqs_last : forall N A e f (p : P A) V (Q : A -> dst -> frame -> list value -> Prop), part N e p V ->
    (forall a v d, V a v -> Q a d f [v]) -> seqs N [e] f p Q.
  Proof.
    intros N A e f p V Q Hp Hq s d R L. specialize (Hp f s d R L). destruct (p d).
    - destruct Hp as (s' & H1 & H2). exists [], f, s'. split; auto. eapply seq_fail; eauto.
    - destruct Hp as (v & s' & H1 & H2 & H3). exists [v], f, s'. split; auto.
      eapply seq_cons; eauto. apply seq_nil.
  Qed.
  Lemma seqs_last_label : forall N A l e f (p : P A) V (Q : A -> dst -> frame -> list value -> Prop), l <> "" -> body N e p V ->
    (forall a v d, V a v -> Q a d (ainsert l v f) [v]) -> seqs N [ELabel l e] f p Q.
  Proof.
    intros N A l e f p V Q Hl Hp Hq s d R L. specialize (Hp s d R L). destruct (p d).
    - destruct Hp as (f' & s' & H1 & H2).
      pose proof (runs_label g l e f s false VNil f' s' Hl H1) as X. cbn in X.
      exists [], f, s'. split; auto. eapply seq_fail; eauto.
    - destruct Hp as (v & f' & s' & H1 & H2 & H3).
      pose proof (runs_label g l e f s true v f' s' Hl H1) as X. cbn in X.
      exists [v], (ainsert l v f), s'. split; auto.
      eapply seq_cons; eauto. apply seq_nil.
  Qed.
  Lemma seqs_ling : forall N A (h : list struct -> A) f (Q : A -> dst -> frame -> list value -> Prop),
    (forall d, Q (h (dling d)) d f []) -> seqs N [] f (l <-- lingering ;; ret (h l)) Q.
  Proof. intros N A h f Q H s d R L. cbn. exists [], f, s. split; [apply seq_nil|auto]. Qed.
  Lemma seqs_state : forall N A run es f x (k : P A) Q,
    (forall st, run f st = st ++ [VStruct x]) ->
    seqs N es f k (fun b d f' vs => Q b d f' (VNil :: vs)) ->
    seqs N (EState run :: es) f (linger x ;;; k) Q.
  Proof.
    intros N A run es f x k Q Hr Hk s d R L. unfold andThen, linger.
    set (s' := mkPst (rest s) (run f (ling s)) (errs s)).
    assert (R' : srel s' (mkD (drest d) (dling d ++ [x]) (derrs d))).
    { destruct R as [X Y Z0]. split; cbn; auto. rewrite Hr, Y, map_app. reflexivity. }
    specialize (Hk s' _ R' L). destruct (k _).
    - destruct Hk as (vs & f2 & s2 & K1 & K2). exists (VNil :: vs), f2, s2. split; auto.
      eapply seq_cons; eauto. apply runs_state.
    - destruct Hk as (vs & f2 & s2 & K1 & K2 & K3). exists (VNil :: vs), f2, s2. split; auto.
      eapply seq_cons; eauto. apply runs_state.
  Qed.

  Lemma ascii_cls : forall chars ranges,
    forallb (fun c => inR 0 127 c) chars = true ->
    forallb (fun r => (0 <=? fst r) && (snd r <=? 127)) ranges = true ->
    eatsAscii (cls chars ranges).
  Proof.
    intros chars ranges H1 H2 d a d' E. unfold cls in E. destruct (drest d) as [|c r]; [discriminate|].
    destruct (inClass chars ranges c) eqn:IC; [|discriminate]. inversion E; subst. cbn [drest].
    exists [a]. split; auto. constructor; auto. unfold inClass in IC. unfold asciiRune.
    apply orb_prop in IC. destruct IC as [IC|IC]; apply existsb_exists in IC; destruct IC as (x & I & Q).
    - rewrite forallb_forall in H1. apply H1 in I. unfold inR in I. lia.
    - rewrite forallb_forall in H2. apply H2 in I. lia.
  Qed.
  Lemma ascii_ret : forall A (a : A), eatsAscii (ret a).
  Proof. intros A a d b d' E. inversion E; subst. exists []. auto. Qed.
  Lemma ascii_then : forall A B (p : P A) (k : A -> P B),
    eatsAscii p -> (forall a, eatsAscii (k a)) -> eatsAscii (andThen p k).
  Proof.
    intros A B p k Hp Hk d b d' E. unfold andThen in E. destruct (p d) eqn:Ep; [discriminate|].
    apply Hp in Ep. apply Hk in E. destruct Ep as (t1 & E1 & F1). destruct E as (t2 & E2 & F2).
    exists (t1 ++ t2). rewrite E1, E2, app_assoc. split; auto. apply Forall_app; auto.
  Qed.
  Lemma ascii_or : forall A (p q : P A), eatsAscii p -> eatsAscii q -> eatsAscii (p <|> q).
  Proof.
    intros A p q Hp Hq d a d' E. unfold orElse in E. destruct (p d) eqn:Ep.
    - apply Hq in E. exact E.
    - inversion E; subst. eapply Hp; eauto.
  Qed.
  Lemma ascii_many : forall A (p : P A), eatsAscii p -> eatsAscii (many p).
  Proof.
    intros A p Hp d a d' E. unfold many in E. remember (S (length (drest d))) as n. clear Heqn.
    revert d a d' E. induction n as [|n IH]; intros d a d' E; cbn [manyF] in E.
    - inversion E; subst. exists []. auto.
    - destruct (p d) eqn:Ep.
      + inversion E; subst. exists []. auto.
      + destruct (manyF n p d0) eqn:Em; [discriminate|]. inversion E; subst.
        apply Hp in Ep. apply IH in Em. destruct Ep as (t1 & E1 & F1). destruct Em as (t2 & E2 & F2).
        exists (t1 ++ t2). rewrite E1, E2, app_assoc. split; auto. apply Forall_app; auto.
  Qed.
  Lemma ascii_lit : forall x, asciiText (textOf x) = true -> eatsAscii (lit x).
  Proof.
    intros x H d u d' E. apply lit_done in E. destruct E as (E & _). exists (codes x). split; auto.
    unfold codes. apply Forall_forall. intros c I. apply in_map_iff in I. destruct I as (a & <- & I).
    unfold asciiText in H. rewrite forallb_forall in H. apply H in I. pose proof (byte_range a).
    unfold asciiRune. lia.
  Qed.
End Refine.
