(** A failed match leaves the position and the recorded inline structs as they
    were, whatever the grammar. *)
From Coq Require Import ZArith String Ascii List Bool Lia.
From Verif Require Import Base Ast PegModel PegEngine.
Import ListNotations.
Open Scope string_scope.
Open Scope list_scope.
Open Scope Z_scope.

Definition unmoved (s s' : pst) : Prop := rest s' = rest s /\ ling s' = ling s /\ exists es, errs s' = errs s ++ es.
Definition later (s s' : pst) : Prop := exists es, errs s' = errs s ++ es.
Lemma unmoved_refl : forall s, unmoved s s.
Proof. intros s. split; auto. split; auto. exists []. rewrite app_nil_r. auto. Qed.
Lemma later_refl : forall s, later s s.
Proof. intros s. exists []. rewrite app_nil_r. auto. Qed.
Lemma later_trans : forall s1 s2 s3, later s1 s2 -> later s2 s3 -> later s1 s3.
Proof. intros s1 s2 s3 [a A] [b B]. exists (a ++ b). rewrite B, A, app_assoc. auto. Qed.
Lemma later_read : forall s, later s (read s).
Proof.
  intros s. unfold read. destruct (invalid _); [exists [EEncoding]; reflexivity|exists []; rewrite app_nil_r; reflexivity].
Qed.
Lemma later_lit : forall w s, later s (snd (litLoop w s)).
Proof.
  induction w as [|c w IH]; intros s; cbn [litLoop]; [apply later_refl|].
  destruct (rune s =? byte c); [|apply later_refl]. eapply later_trans; [apply later_read|apply IH].
Qed.
Lemma lit_ling : forall w s, ling (snd (litLoop w s)) = ling s.
Proof.
  induction w as [|c w IH]; intros s; cbn [litLoop]; auto.
  destruct (rune s =? byte c); auto. rewrite IH. unfold read. destruct (invalid _); reflexivity.
Qed.
Lemma later_opt : forall e s, later s (optErr e s).
Proof. intros [e|] s; cbn; [eexists; reflexivity|apply later_refl]. Qed.

Section Restore.
  Variable rules : grammar.
  Definition keepsExpr (n : nat) : Prop := forall e f s ok v f' s', parseExpr rules n e f s = Ok (ok, v, f', s') ->
    later s s' /\ (ok = false -> unmoved s s').
  Definition keepsAlts (n : nat) : Prop := forall es f s ok v f' s', parseAlts rules n es f s = Ok (ok, v, f', s') ->
    later s s' /\ (ok = false -> unmoved s s').
  Definition keepsSeq (n : nat) : Prop := forall es f s ok v f' s', parseSeq rules n es f s = Ok (ok, v, f', s') -> later s s'.
  Definition keepsLoop (n : nat) : Prop := forall e s ok vs s', parseLoop rules n e s = Ok (ok, vs, s') ->
    later s s' /\ (vs = [] -> unmoved s s') /\ ok = true.

  Lemma keeps_all : forall n, keepsExpr n /\ keepsAlts n /\ keepsSeq n /\ keepsLoop n.
  Proof.
    induction n as [|n (IE & IA & IS & IL)]; [repeat split; discriminate|].
    assert (Inv : forall s s', later s s' -> unmoved s (restore (rest s) (restoreState (ling s) s'))).
    { intros s s' L. split; auto. }
    split; [|split; [|split]].
    - intros e f s ok v f' s' H. destruct e as [run e| |cs rs|alts|l e|w|e|e|name|es|run|e|e]; rewrite expr_S in H.
      + destruct (parseExpr rules n e f s) as [[[[ok1 v1] f1] s1]| | |] eqn:E; cbn [bind] in H; try discriminate.
        destruct (IE _ _ _ _ _ _ _ E) as [L U]. destruct ok1.
        * destruct (run _ _ _) as [[v2 er]| | |]; cbn [bind] in H; try discriminate. inversion H; subst.
          split; [eapply later_trans; [exact L|apply later_opt]|discriminate].
        * inversion H; subst. auto.
      + inversion H; subst. unfold parseAny in *. destruct (atEnd s); inversion H1; subst.
        * split; [apply later_refl|intros; apply unmoved_refl].
        * split; [apply later_read|discriminate].
      + inversion H; subst. unfold parseClass in *. destruct (atEnd s); [|destruct (inClass _ _ _)]; inversion H1; subst.
        all: try (split; [apply later_refl|intros; apply unmoved_refl]).
        all: try (split; [apply later_read|discriminate]).
      + eauto.
      + destruct (parseExpr rules n e [] s) as [[[[ok1 v1] f1] s1]| | |] eqn:E; cbn [bind] in H; try discriminate.
        inversion H; subst. eauto.
      + inversion H; subst. unfold parseLit in *. pose proof (later_lit (textOf w) s) as L. pose proof (lit_ling (textOf w) s) as Q.
        destruct (litLoop (textOf w) s) as [[] s1]; inversion H1; subst; cbn [snd] in L, Q.
        * split; [exact L|discriminate].
        * split; [exact L|]. intros _. split; auto.
      + destruct (parseExpr rules n e [] s) as [[[[ok1 v1] f1] s1]| | |] eqn:E; cbn [bind] in H; try discriminate.
        inversion H; subst. destruct (IE _ _ _ _ _ _ _ E) as [L U]. split; [exact L|]. intros _. apply Inv. exact L.
      + destruct (parseLoop rules n e s) as [[[ok1 vs] s1]| | |] eqn:E; cbn [bind] in H; try discriminate.
        destruct (IL _ _ _ _ _ E) as (L & U & ->). destruct vs; inversion H; subst; split; auto; discriminate.
      + destruct (alookup name rules) as [e|].
        * destruct (parseExpr rules n e [] s) as [[[[ok1 v1] f1] s1]| | |] eqn:E; cbn [bind] in H; try discriminate.
          inversion H; subst. eauto.
        * inversion H; subst. split; [eexists; reflexivity|]. intros _. split; auto. split; auto. eexists; reflexivity.
      + destruct (parseSeq rules n es f s) as [[[[ok1 vs] f1] s1]| | |] eqn:E; cbn [bind] in H; try discriminate.
        pose proof (IS _ _ _ _ _ _ _ E) as L. destruct ok1; inversion H; subst; [split; [exact L|discriminate]|].
        split; [exact L|]. intros _. apply Inv. exact L.
      + inversion H; subst. split; [exists []; rewrite app_nil_r; reflexivity|discriminate].
      + destruct (parseLoop rules n e s) as [[[ok1 vs] s1]| | |] eqn:E; cbn [bind] in H; try discriminate.
        destruct (IL _ _ _ _ _ E) as (L & U & _). inversion H; subst. split; [exact L|discriminate].
      + destruct (parseExpr rules n e [] s) as [[[[ok1 v1] f1] s1]| | |] eqn:E; cbn [bind] in H; try discriminate.
        inversion H; subst. destruct (IE _ _ _ _ _ _ _ E) as [L U]. split; [exact L|discriminate].
    - intros es f s ok v f' s' H. destruct es as [|e es]; rewrite alts_S in H.
      + inversion H; subst. split; [apply later_refl|intros; apply unmoved_refl].
      + destruct (parseExpr rules n e [] s) as [[[[ok1 v1] f1] s1]| | |] eqn:E; cbn [bind] in H; try discriminate.
        destruct (IE _ _ _ _ _ _ _ E) as [L U]. destruct ok1; [inversion H; subst; split; [exact L|discriminate]|].
        destruct (U eq_refl) as (U1 & U2 & U3). destruct (IA _ _ _ _ _ _ _ H) as [L2 V].
        split; [eapply later_trans; [exact L|exact L2]|]. intros Eo. destruct (V Eo) as (V1 & V2 & _).
        split; [rewrite V1; exact U1|]. split; [exact V2|]. eapply later_trans; [exact L|exact L2].
    - intros es f s ok v f' s' H. destruct es as [|e es]; rewrite seq_S in H; [inversion H; subst; apply later_refl|].
      destruct (parseExpr rules n e f s) as [[[[ok1 v1] f1] s1]| | |] eqn:E; cbn [bind] in H; try discriminate.
      destruct (IE _ _ _ _ _ _ _ E) as [L U]. destruct ok1; [|inversion H; subst; exact L].
      destruct (parseSeq rules n es f1 s1) as [[[[ok2 v2] f2] s2]| | |] eqn:E2; cbn [bind] in H; try discriminate.
      inversion H; subst. eapply later_trans; [exact L|eauto].
    - intros e s ok vs s' H. rewrite loop_S in H.
      destruct (parseExpr rules n e [] s) as [[[[ok1 v1] f1] s1]| | |] eqn:E; cbn [bind] in H; try discriminate.
      destruct (IE _ _ _ _ _ _ _ E) as [L U]. destruct ok1; [|inversion H; subst; auto].
      destruct (parseLoop rules n e s1) as [[[ok2 v2] s2]| | |] eqn:E2; cbn [bind] in H; try discriminate.
      destruct (IL _ _ _ _ _ E2) as (L2 & _ & ->). inversion H; subst. split; [eapply later_trans; eauto|]. split; auto. discriminate.
  Qed.
End Restore.
