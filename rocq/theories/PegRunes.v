(** Source texts as sequences of runes, and what every expression does to the
    position, the recorded declarations and the errors. *)
From Coq Require Import ZArith String Ascii List Bool Lia ZifyBool ZifyNat.
From Verif Require Import Base Ast PegModel PegEngine.
Import ListNotations.
Open Scope string_scope.
Open Scope list_scope.
Open Scope Z_scope.

(** One rune of the text; -1 stands for a byte that is not valid UTF-8. *)
Definition itemOf (t : text) : Z := if invalid t then -1 else fst (DecodeRune t).

Fixpoint runesF (n : nat) (t : text) : list Z :=
  match n with
  | O => []
  | S n =>
      match t with
      | [] => []
      | _ => itemOf t :: runesF n (skipn (snd (DecodeRune t)) t)
      end
  end.
Definition runes (t : text) : list Z := runesF (length t) t.

Definition good (c : Z) : Prop := 0 <= c.

Lemma byte_range : forall c, 0 <= byte c < 256.
Proof.
  intros c. unfold byte. pose proof (N_ascii_bounded c). lia.
Qed.

Lemma width : forall t, t <> [] -> (1 <= snd (DecodeRune t) <= length t)%nat.
Proof.
  intros [|c0 t] H; [congruence|]. unfold DecodeRune.
  repeat match goal with
  | |- context [match ?x with _ => _ end] => destruct x
  end; cbn [snd length]; lia.
Qed.

Lemma runesF_any : forall m n t, (length t <= m)%nat -> (length t <= n)%nat ->
  runesF n t = runesF m t.
Proof.
  induction m as [|m IH]; intros n t Hle Hn.
  - destruct t; cbn in Hle; [|lia]. destruct n; reflexivity.
  - destruct t as [|c t]; [destruct n; reflexivity|].
    destruct n as [|n]; [cbn in Hn; lia|].
    cbn [runesF]. f_equal.
    assert (W : (1 <= snd (DecodeRune (c :: t)) <= length (c :: t))%nat) by (apply width; discriminate).
    apply IH; rewrite skipn_length; lia.
Qed.

Lemma runesF_enough : forall n t, (length t <= n)%nat -> runesF n t = runes t.
Proof. intros n t H. apply runesF_any; auto. Qed.

Lemma runes_nil : runes [] = [].
Proof. reflexivity. Qed.

Lemma runes_cons : forall t, t <> [] ->
  runes t = itemOf t :: runes (skipn (snd (DecodeRune t)) t).
Proof.
  intros t H. unfold runes at 1. destruct t as [|c t]; [congruence|].
  cbn [length runesF]. f_equal. apply runesF_enough.
  pose proof (width (c :: t) H) as W. rewrite skipn_length. change (length (c :: t)) with (S (length t)) in *. lia.
Qed.

Lemma runes_empty : forall t, runes t = [] -> t = [].
Proof. intros [|c t]; auto. rewrite runes_cons by discriminate. discriminate. Qed.

Lemma decode_pos : forall t, 0 <= fst (DecodeRune t).
Proof.
  intros [|c0 t]; unfold DecodeRune, cont, inR, RuneError; [cbn [fst]; lia|].
  pose proof (byte_range c0). cbv zeta.
  destruct t as [|c1 [|c2 [|c3 t]]];
    repeat match goal with
    | |- context [match ?x with true => _ | false => _ end] => destruct x eqn:?
    end; cbn [fst];
    repeat match goal with
    | H : context [match ?x with true => _ | false => _ end] |- _ => destruct x eqn:?
    end; lia.
Qed.

Lemma item_good : forall t, invalid t = false <-> good (itemOf t).
Proof.
  intros t. unfold itemOf, good. destruct (invalid t).
  - split; [discriminate|lia].
  - split; auto. intros _. apply decode_pos.
Qed.

Lemma invalid_nil : invalid [] = false.
Proof. reflexivity. Qed.

Lemma runes_length : forall t, (length (runes t) <= length t)%nat.
Proof.
  intros t. remember (length t) as m eqn:Hm. assert (Hle : (length t <= m)%nat) by lia.
  rewrite Hm. clear Hm. revert t Hle. induction m as [|m IH]; intros t Hle.
  - destruct t; cbn in *; lia.
  - destruct t as [|c t]; [cbn; lia|]. rewrite runes_cons by discriminate.
    pose proof (width (c :: t) ltac:(discriminate)).
    cbn [length]. specialize (IH (skipn (snd (DecodeRune (c :: t))) (c :: t))).
    rewrite skipn_length in IH. cbn [length] in *. lia.
Qed.

(** ** The position moves forward rune by rune *)

Inductive steps : list Z -> text -> text -> Prop :=
| steps_nil : forall t, steps [] t t
| steps_cons : forall t cs t', t <> [] ->
    steps cs (skipn (snd (DecodeRune t)) t) t' -> steps (itemOf t :: cs) t t'.

Lemma steps_app : forall a b t1 t2 t3, steps a t1 t2 -> steps b t2 t3 -> steps (a ++ b) t1 t3.
Proof. induction 1; intros; cbn [app]; auto. constructor; auto. Qed.

Lemma steps_runes : forall cs t t', steps cs t t' -> runes t = cs ++ runes t'.
Proof. induction 1; auto. rewrite runes_cons by auto. rewrite IHsteps. reflexivity. Qed.

Lemma steps_bytes : forall cs t t', steps cs t t' -> exists b, t = b ++ t'.
Proof.
  induction 1 as [t|t cs t' H S (b & E)]; [exists []; auto|].
  exists (firstn (snd (DecodeRune t)) t ++ b). rewrite <- app_assoc, <- E, firstn_skipn. reflexivity.
Qed.

Record moved (s s' : pst) : Prop := {
  m_runes : exists t, steps t (rest s) (rest s') /\
                      (errs s' = [] -> invalid (rest s) = false -> Forall good t);
  m_errs : exists x, errs s' = errs s ++ x;
  m_head : errs s' = [] -> invalid (rest s) = false -> invalid (rest s') = false;
  m_clean : Forall good (runes (rest s)) -> ~ In EEncoding (errs s) -> ~ In EEncoding (errs s') }.

Lemma moved_refl : forall s s', rest s' = rest s -> errs s' = errs s -> moved s s'.
Proof.
  intros s s' H1 H2. split; rewrite ?H1, ?H2; auto.
  - exists []. split; [constructor|auto].
  - exists []. rewrite app_nil_r. reflexivity.
Qed.

Lemma moved_trans : forall s1 s2 s3, moved s1 s2 -> moved s2 s3 -> moved s1 s3.
Proof.
  intros s1 s2 s3 A B.
  destruct (m_runes _ _ A) as (t1 & E1 & G1). destruct (m_runes _ _ B) as (t2 & E2 & G2).
  destruct (m_errs _ _ A) as (x1 & X1). destruct (m_errs _ _ B) as (x2 & X2).
  assert (Back : errs s3 = [] -> errs s2 = []).
  { intros H. rewrite X2 in H. apply app_eq_nil in H. tauto. }
  split.
  - exists (t1 ++ t2). split; [eapply steps_app; eauto|].
    intros H I. apply Forall_app. split; [auto|]. apply G2; auto. eapply m_head; eauto.
  - exists (x1 ++ x2). rewrite X2, X1, app_assoc. auto.
  - intros H I. eapply m_head; [exact B|auto|]. eapply m_head; eauto.
  - intros G N. eapply m_clean; [exact B| |].
    + rewrite (steps_runes _ _ _ E1) in G. apply Forall_app in G. tauto.
    + eapply m_clean; eauto.
Qed.

(** Going back to the start of a move, with the errors kept. *)
Lemma moved_back : forall s s' s'', moved s s' -> rest s'' = rest s -> errs s'' = errs s' -> moved s s''.
Proof.
  intros s s' s'' A R E. destruct (m_errs _ _ A) as (x1 & X1). split; rewrite ?R, ?E.
  - exists []. split; [constructor|auto].
  - eauto.
  - auto.
  - apply (m_clean _ _ A).
Qed.

Lemma moved_errs : forall s s' s'', moved s s' -> rest s'' = rest s' -> errs s'' = errs s' -> moved s s''.
Proof.
  intros s s' s'' A R E. eapply moved_trans; [exact A|]. apply moved_refl; auto.
Qed.

Lemma moved_act : forall s er, moved s (optErr er s).
Proof.
  intros s [er|]; [|apply moved_refl; auto]. cbn [optErr]. split; cbn [addErr rest errs].
  - exists []. split; [constructor|auto].
  - eauto.
  - auto.
  - intros _ N H. apply in_app_or in H. destruct H as [H|[H|[]]]; auto. discriminate.
Qed.

Lemma atEnd_spec : forall s, atEnd s = true <-> rest s = [].
Proof.
  intros s. unfold atEnd. split.
  - intros H. destruct (rest s) as [|c t] eqn:E; auto. exfalso.
    pose proof (width (c :: t) ltac:(discriminate)). destruct (DecodeRune (c :: t)) as [r n].
    cbn [snd] in *. lia.
  - intros H. rewrite H. reflexivity.
Qed.

Lemma read_rest : forall s, rest (read s) = skipn (snd (DecodeRune (rest s))) (rest s).
Proof. intros s. unfold read. destruct (invalid _); reflexivity. Qed.
Lemma read_ling : forall s, ling (read s) = ling s.
Proof. intros s. unfold read. destruct (invalid _); reflexivity. Qed.
Lemma read_errs : forall s, errs (read s) =
  if invalid (rest (read s)) then errs s ++ [EEncoding] else errs s.
Proof. intros s. rewrite read_rest. unfold read. destruct (invalid _); reflexivity. Qed.

Lemma read_runes : forall s, runes (rest (read s)) = tl (runes (rest s)).
Proof.
  intros s. rewrite read_rest. destruct (rest s) as [|c t] eqn:E.
  - reflexivity.
  - rewrite (runes_cons (c :: t)) by discriminate. reflexivity.
Qed.

Lemma moved_read : forall s, moved s (read s).
Proof.
  intros s. destruct (rest s) as [|c t] eqn:E.
  - assert (R : rest (read s) = rest s) by (rewrite read_rest, E; reflexivity).
    apply moved_refl; auto. rewrite read_errs, R, E. reflexivity.
  - split.
    + exists [itemOf (rest s)]. rewrite read_rest. split.
      { constructor; [rewrite E; discriminate|constructor]. }
      intros _ H. constructor; auto. apply item_good; auto.
    + rewrite read_errs. destruct (invalid _); [eauto|]. exists []. rewrite app_nil_r. auto.
    + rewrite read_errs. destruct (invalid (rest (read s))) eqn:I; auto.
      intros H. apply app_eq_nil in H. destruct H; discriminate.
    + intros G N. rewrite read_errs. destruct (invalid (rest (read s))) eqn:I; auto.
      exfalso. rewrite runes_cons in G by (rewrite E; discriminate).
      apply Forall_inv_tail in G. rewrite <- read_rest in G.
      destruct (rest (read s)) as [|c' t'] eqn:E'; [discriminate|].
      rewrite runes_cons in G by discriminate. apply Forall_inv in G.
      apply item_good in G. congruence.
Qed.

Lemma litLoop_facts : forall w s ok s', litLoop w s = (ok, s') -> moved s s' /\ ling s' = ling s.
Proof.
  induction w as [|c w IH]; cbn [litLoop]; intros s ok s' H.
  - inversion H; subst. split; auto. apply moved_refl; auto.
  - destruct (rune s =? byte c).
    + apply IH in H. destruct H as [H1 H2]. split.
      * eapply moved_trans; [apply moved_read|]. auto.
      * rewrite H2, read_ling. reflexivity.
    + inversion H; subst. split; auto. apply moved_refl; auto.
Qed.

Definition kept (ok : bool) (s s' : pst) : Prop :=
  moved s s' /\ (ok = false -> rest s' = rest s /\ ling s' = ling s).

Lemma lit_facts : forall x f s ok v f' s', parseLit x f s = (ok, v, f', s') -> kept ok s s'.
Proof.
  unfold parseLit. intros x f s ok v f' s' H.
  destruct (litLoop (textOf x) s) as [b s1] eqn:E. apply litLoop_facts in E. destruct E as [E1 E2].
  destruct b; inversion H; subst; clear H.
  - split; auto. discriminate.
  - split.
    + eapply moved_back; [exact E1| |]; reflexivity.
    + intros _. cbn. auto.
Qed.

Lemma class_facts : forall c r f s ok v f' s', parseClass c r f s = (ok, v, f', s') -> kept ok s s'.
Proof.
  unfold parseClass. intros c r f s ok v f' s' H.
  destruct (atEnd s); [|destruct (inClass c r (rune s))]; inversion H; subst; clear H.
  - split; auto. apply moved_refl; auto.
  - split; [apply moved_read|discriminate].
  - split; auto. apply moved_refl; auto.
Qed.

Lemma any_facts : forall f s ok v f' s', parseAny f s = (ok, v, f', s') -> kept ok s s'.
Proof.
  unfold parseAny. intros f s ok v f' s' H.
  destruct (atEnd s); inversion H; subst; clear H.
  - split; auto. apply moved_refl; auto.
  - split; [apply moved_read|discriminate].
Qed.

Section Facts.
  Variable rules : grammar.

  Definition factsAt (n : nat) : Prop :=
    (forall e f s ok v f' s', parseExpr rules n e f s = Ok (ok, v, f', s') -> kept ok s s') /\
    (forall es f s ok v f' s', parseAlts rules n es f s = Ok (ok, v, f', s') -> kept ok s s') /\
    (forall es f s ok vs f' s', parseSeq rules n es f s = Ok (ok, vs, f', s') -> moved s s') /\
    (forall e s ok vs s', parseLoop rules n e s = Ok (ok, vs, s') ->
       ok = true /\ moved s s' /\ (vs = [] -> rest s' = rest s /\ ling s' = ling s)).

  Lemma bind_inv : forall A B (x : outcome A) (k : A -> outcome B) b,
    bind x k = Ok b -> exists a, x = Ok a /\ k a = Ok b.
  Proof. intros A B [] k b H; try discriminate. eauto. Qed.

  Lemma facts : forall n, factsAt n.
  Proof.
    induction n as [|n (He & Ha & Hs & Hl)].
    { repeat split; intros; discriminate. }
    split; [|split; [|split]].
    - intros e f s ok v f' s' H. rewrite expr_S in H. destruct e.
      + apply bind_inv in H. destruct H as ([[[ok1 v1] f1] s1] & E & H). apply He in E.
        destruct ok1.
        * apply bind_inv in H. destruct H as ([v2 er] & R & H). inversion H; subst; clear H.
          split; [|discriminate]; eapply moved_trans; [apply (proj1 E)|apply moved_act].
        * inversion H; subst. exact E.
      + inversion H. eapply any_facts; eauto.
      + inversion H. eapply class_facts; eauto.
      + eapply Ha; eauto.
      + apply bind_inv in H. destruct H as ([[[ok1 v1] f1] s1] & E & H). apply He in E.
        inversion H; subst; clear H. exact E.
      + inversion H. eapply lit_facts; eauto.
      + apply bind_inv in H. destruct H as ([[[ok1 v1] f1] s1] & E & H). apply He in E.
        inversion H; subst; clear H. split; [|cbn; auto].
        eapply moved_back; [apply (proj1 E)| |]; reflexivity.
      + apply bind_inv in H. destruct H as ([[ok1 vs] s1] & E & H). apply Hl in E.
        destruct E as (Eo & Em & Ev). subst ok1. destruct vs; inversion H; subst; clear H.
        * split; auto.
        * split; auto. discriminate.
      + destruct (alookup name rules).
        * apply bind_inv in H. destruct H as ([[[ok1 v1] f1] s1] & E & H). apply He in E.
          inversion H; subst; clear H. exact E.
        * inversion H; subst; clear H. split; [split; cbn [addErr rest errs]|cbn; auto].
          -- exists []. split; [constructor|auto].
          -- eauto.
          -- auto.
          -- intros _ N I. apply in_app_or in I. destruct I as [I|[I|[]]]; auto. discriminate.
      + apply bind_inv in H. destruct H as ([[[ok1 v1] f1] s1] & E & H). apply Hs in E.
        destruct ok1; inversion H; subst; clear H.
        * split; auto. discriminate.
        * split; [|cbn; auto]. eapply moved_back; [exact E| |]; reflexivity.
      + inversion H; subst; clear H. split; [|discriminate]. apply moved_refl; auto.
      + apply bind_inv in H. destruct H as ([[ok1 vs] s1] & E & H). apply Hl in E.
        inversion H; subst; clear H. split; [tauto|discriminate].
      + apply bind_inv in H. destruct H as ([[[ok1 v1] f1] s1] & E & H). apply He in E.
        inversion H; subst; clear H. split; [apply E|discriminate].
    - intros es f s ok v f' s' H. rewrite alts_S in H. destruct es as [|e es].
      + inversion H; subst. split; auto. apply moved_refl; auto.
      + apply bind_inv in H. destruct H as ([[[ok1 v1] f1] s1] & E & H). apply He in E.
        destruct E as [E1 E2]. destruct ok1.
        * inversion H; subst. split; [exact E1|discriminate].
        * apply Ha in H. destruct H as [H1 H2]. destruct (E2 eq_refl) as [R L]. split.
          -- eapply moved_trans; [|exact H1]. eapply moved_errs; [exact E1| |]; reflexivity.
          -- intros O. destruct (H2 O) as [R' L']. cbn in R', L'. split; congruence.
    - intros es f s ok v f' s' H. rewrite seq_S in H. destruct es as [|e es].
      + inversion H; subst. apply moved_refl; auto.
      + apply bind_inv in H. destruct H as ([[[ok1 v1] f1] s1] & E & H). apply He in E.
        destruct ok1.
        * apply bind_inv in H. destruct H as ([[[ok2 v2] f2] s2] & E2 & H). apply Hs in E2.
          inversion H; subst. eapply moved_trans; [apply (proj1 E)|exact E2].
        * inversion H; subst. apply E.
    - intros e s ok vs s' H. rewrite loop_S in H.
      apply bind_inv in H. destruct H as ([[[ok1 v1] f1] s1] & E & H). apply He in E.
      destruct ok1.
      + apply bind_inv in H. destruct H as ([[ok2 v2] s2] & E2 & H). apply Hl in E2.
        inversion H; subst. destruct E2 as (-> & M & _). split; auto. split.
        * eapply moved_trans; [apply (proj1 E)|exact M].
        * discriminate.
      + inversion H; subst. destruct E as [E1 E2]. auto.
  Qed.

  (** Failing expressions leave the position and the declarations as they were. *)
  Lemma failure_restores : forall n e f s v f' s',
    parseExpr rules n e f s = Ok (false, v, f', s') -> rest s' = rest s /\ ling s' = ling s.
  Proof. intros n e f s v f' s' H. destruct (facts n) as (He & _). apply He in H. apply H. reflexivity. Qed.

  Lemma run_moved : forall n e f s ok v f' s',
    parseExpr rules n e f s = Ok (ok, v, f', s') -> moved s s'.
  Proof. intros n e f s ok v f' s' H. destruct (facts n) as (He & _). apply He in H. apply H. Qed.
End Facts.
