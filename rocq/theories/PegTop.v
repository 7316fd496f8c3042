(** [parse.String] in terms of the functions of [PegDescent]. *)
From Coq Require Import ZArith String Ascii List Bool Lia ZifyBool ZifyNat.
From Verif Require Import Base Ast PegModel PegGrammar PegEngine PegRunes PegDescent PegConsume PegRefine PegRules.
Import ListNotations.
Open Scope string_scope.
Open Scope list_scope.
Open Scope Z_scope.

(** The engine returns [r], with any sufficient fuel. *)
Definition returns (data : text) (r : outcome file) : Prop :=
  exists n, forall m, (n <= m)%nat -> parseString m data = Some r.

Lemma returns_fun : forall data r1 r2, returns data r1 -> returns data r2 -> r1 = r2.
Proof.
  intros data r1 r2 [n H1] [m H2]. specialize (H1 (Nat.max n m) ltac:(lia)).
  specialize (H2 (Nat.max n m) ltac:(lia)). congruence.
Qed.

Lemma returns_some : forall data n r, parseString n data = Some r -> returns data r.
Proof.
  intros data n r H. exists n. intros m L. unfold parseString, parseFrom in *.
  set (s := if invalid data then addErr EEncoding (mkPst data [] []) else mkPst data [] []) in *.
  destruct (parseExpr g n (ERule "File") [] s) eqn:E; try discriminate.
  all: rewrite (expr_mono g n m); [|exact L|rewrite E; discriminate]; rewrite E; exact H.
Qed.

Definition start (cs : list Z) : dst := mkD cs [] [].
Definition failed : outcome file := Err "parse error".
Definition accepted (n : nat) (data : text) (f : file) : Prop :=
  Forall good (runes data) /\ exists d, fileP n (start (runes data)) = Done f d /\ derrs d = [].

Lemma fileP_all : forall n d f d', fileP n d = Done f d' -> drest d' = [].
Proof.
  intros n d f d'. unfold fileP, andThen, notP, any, lingering, ret.
  destruct (sk d) as [|? d1]; [discriminate|]. destruct (many (declP n) d1) as [|? d2]; [discriminate|].
  destruct (sk d2) as [|? d3]; [discriminate|]. destruct (drest d3) eqn:E; [|discriminate].
  intros H. inversion H; subst. cbn. auto.
Qed.

Lemma real_nil : forall l, ~ In EEncoding l -> real l = [] -> l = [].
Proof.
  intros [|[] l] H R; auto; cbn in *; try discriminate. tauto.
Qed.

Lemma parse_descent : forall n data, (length (runes data) < n)%nat ->
  (exists f, accepted n data f /\ returns data (Ok f)) \/
  ((forall f, ~ accepted n data f) /\ returns data failed).
Proof.
  intros n data Hn.
  set (s := if invalid data then addErr EEncoding (mkPst data [] []) else mkPst data [] []).
  assert (R : srel s (start (runes data))).
  { unfold s. destruct (invalid data); split; reflexivity. }
  assert (Rs : rest s = data) by (unfold s; destruct (invalid data); reflexivity).
  pose proof (R_File (length (runes data)) n Hn [] s _ R (le_n _)) as H.
  assert (T : forall ok v s', runs g (ERule "File") [] s (ok, v, [], s') ->
    returns data (cast (if ok : bool then match errs s' with [] => PValue v | _ => PErrors end else PErrors))).
  { intros ok v s' [k K]. apply (returns_some data k). unfold parseString, parseFrom.
    fold s. rewrite K. destruct ok; reflexivity. }
  destruct (fileP n (start (runes data))) as [er|f d] eqn:E.
  - right. destruct H as (s' & H1 & H2). split.
    + intros f (_ & d & K & _). congruence.
    + apply (T _ _ _ H1).
  - destruct H as (v & s' & H1 & H2 & ->). pose proof (T _ _ _ H1) as T1. cbv iota in T1.
    destruct H1 as [k K]. pose proof (run_moved _ _ _ _ _ _ _ _ _ K) as M.
    assert (Rest : rest s' = []).
    { apply runes_empty. rewrite <- (r_rest _ _ H2). eapply fileP_all; eauto. }
    destruct (errs s') as [|e0 es] eqn:Ee.
    + left. exists f. split; [|exact T1].
      assert (I : invalid data = false).
      { destruct (m_errs _ _ M) as (x & X). rewrite Ee in X. symmetry in X. apply app_eq_nil in X.
        destruct X as [X _]. unfold s in X. destruct (invalid data); auto. discriminate. }
      split.
      * destruct (m_runes _ _ M) as (t & S & G). apply steps_runes in S. rewrite Rs, Rest in S.
        rewrite runes_nil, app_nil_r in S. rewrite S. apply G; auto. rewrite Rs. exact I.
      * exists d. split; auto. rewrite <- (r_errs _ _ H2), Ee. reflexivity.
    + right. split; [|exact T1]. intros f0 (G & d0 & K0 & K1).
      rewrite E in K0. inversion K0; subst f0 d0.
      assert (NE : ~ In EEncoding (errs s')).
      { apply (m_clean _ _ M); [rewrite Rs; exact G|]. unfold s.
        assert (I : invalid data = false).
        { destruct (invalid data) eqn:I; auto. exfalso.
          destruct data as [|c t]; [discriminate|].
          rewrite runes_cons in G by discriminate. inversion G as [|x y Gx Gy].
          apply item_good in Gx. congruence. }
        rewrite I. cbn. tauto. }
      pose proof (real_nil _ NE) as X. rewrite (r_errs _ _ H2), K1 in X. rewrite X in Ee by auto. discriminate.
Qed.

Lemma returns_iff : forall n data f, (length (runes data) < n)%nat ->
  returns data (Ok f) <-> accepted n data f.
Proof.
  intros n data f Hn. destruct (parse_descent n data Hn) as [(f0 & A & R) | (A & R)].
  - split.
    + intros H. pose proof (returns_fun _ _ _ R H) as E. inversion E; subst. exact A.
    + intros (G & d & E & _). destruct A as (_ & d' & E' & _). rewrite E in E'. inversion E'; subst. exact R.
  - split.
    + intros H. pose proof (returns_fun _ _ _ R H). discriminate.
    + intros H. exfalso. eapply A; eauto.
Qed.

Lemma returns_either : forall data, (exists f, returns data (Ok f)) \/ returns data failed.
Proof.
  intros data. destruct (parse_descent (S (length (runes data))) data ltac:(lia)) as [(f & _ & R) | (_ & R)]; eauto.
Qed.
