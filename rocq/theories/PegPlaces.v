(** The characters of a text are the runes that the parser reads. *)
From Coq Require Import ZArith String Ascii List Bool Lia ZifyBool ZifyNat.
From Verif Require Import Base Ast PegModel PegGrammar PegEngine PegRunes PegUtf8 SyntaxSpec PegReport PegReportProofs ReportSpec PlaceSpec PegPlace PegReportTop.
Import ListNotations.
Open Scope string_scope.
Open Scope list_scope.
Open Scope Z_scope.

(** One rune is one character. *)
Lemma rune_char : forall t l, t <> [] -> characters (skipn (snd (DecodeRune t)) t) l ->
  characters t ((itemOf t, snd (DecodeRune t)) :: l).
Proof.
  intros t l N C. destruct (invalid t) eqn:I.
  - unfold itemOf. rewrite I. unfold invalid in I. destruct (DecodeRune t) as [rn w] eqn:D. cbn [snd] in *.
    assert (w = 1%nat) as -> by lia. destruct t as [|x t]; [congruence|]. cbn [skipn] in C. apply ch_byte; auto.
    intros c b' S E. destruct (decode_utf8 c b' S) as [D' I']. rewrite <- E in I', D'. unfold invalid in I'. rewrite D in I'. rewrite I in I'. discriminate.
  - destruct (decode_valid t N I) as [S E]. assert (W : snd (DecodeRune t) = List.length (utf8_1 (itemOf t))).
    { rewrite E at 1. now rewrite (proj1 (decode_utf8 _ _ S)). }
    rewrite W. rewrite E at 1. now apply ch_point.
Qed.
Lemma chars_exist : forall t, exists l, characters t l.
Proof.
  intros t. remember (List.length t) as n eqn:E. revert t E. induction n as [n IH] using lt_wf_ind. intros t E.
  destruct t as [|x t]; [exists []; constructor|]. assert (N : x :: t <> []) by discriminate. pose proof (width _ N) as W.
  destruct (IH (List.length (skipn (snd (DecodeRune (x :: t))) (x :: t)))) with (t := skipn (snd (DecodeRune (x :: t))) (x :: t)) as [l C]; auto.
  - rewrite skipn_length. lia.
  - eexists. apply rune_char; eauto.
Qed.
(** A text has one sequence of characters. *)
Lemma chars_first : forall t x l, characters t (x :: l) -> x = (itemOf t, snd (DecodeRune t)) /\ characters (skipn (snd (DecodeRune t)) t) l.
Proof.
  intros t x l C. inversion C as [|c b l' S C' E1 E2|y b l' S C' E1 E2]; subst.
  - destruct (decode_utf8 c b S) as [D I]. unfold itemOf. rewrite I, D. cbn [fst snd]. rewrite skipn_app, skipn_all, Nat.sub_diag. auto.
  - destruct (invalid (y :: b)) eqn:I.
    + unfold itemOf. rewrite I. unfold invalid in I. destruct (DecodeRune (y :: b)) as [rn w]. cbn [snd]. assert (w = 1%nat) as -> by lia. auto.
    + exfalso. destruct (decode_valid (y :: b) ltac:(discriminate) I) as [S' E]. exact (S _ _ S' E).
Qed.
Lemma chars_unique : forall t l1, characters t l1 -> forall l2, characters t l2 -> l1 = l2.
Proof.
  intros t l1 C1. induction C1 as [|c b l S C IH|x b l S C IH]; intros l2 C2.
  - inversion C2; subst; auto. destruct (utf8_nonempty c b). auto.
  - destruct l2 as [|y l2]; [inversion C2 as [E| |]; destruct (utf8_nonempty c b); auto|].
    pose proof (ch_point c b l S C) as C1. apply chars_first in C1 as [E1 D1]. apply chars_first in C2 as [E2 D2]. subst y. rewrite E1. f_equal.
    apply IH. destruct (decode_utf8 c b S) as [D _]. rewrite D in D2. cbn [snd] in D2. now rewrite skipn_app, skipn_all, Nat.sub_diag in D2.
  - destruct l2 as [|y l2]; [inversion C2|].
    pose proof (ch_byte x b l S C) as C1. apply chars_first in C1 as [E1 D1]. apply chars_first in C2 as [E2 D2]. subst y. rewrite E1. f_equal.
    apply IH. pose proof (f_equal snd E1) as W. cbn [snd] in W. rewrite <- W in D2. exact D2.
Qed.

Lemma steps_chars : forall cs d r, steps cs d r -> exists a, map fst a = cs /\ bytesIn a = Z.of_nat (List.length d) - Z.of_nat (List.length r) /\
  forall b, characters r b -> characters d (a ++ b).
Proof.
  intros cs d r S. induction S as [d|d cs d' N S IH].
  - exists []. cbn. repeat split; auto. lia.
  - destruct IH as (a & E1 & E2 & C). exists ((itemOf d, snd (DecodeRune d)) :: a). pose proof (width d N) as W. cbn [map fst bytesIn fold_right snd app].
    split; [now rewrite E1|]. split.
    + fold (bytesIn a). rewrite E2, skipn_length. lia.
    + intros b B. apply rune_char; auto.
Qed.

Lemma places : forall data p, atSome data p -> placeBytes data (offset p) (line p) (col p).
Proof.
  intros data p [->|(r & cs & S & E & O)].
  - destruct (chars_exist data) as [l C]. exists [], l. split; auto.
  - destruct (steps_chars _ _ _ S) as (a & <- & B & C). destruct (chars_exist r) as [b R]. exists a, b. split; [auto|]. split; [lia|].
    unfold after in E. destruct (_ =? 10) eqn:N; [right|left; now inversion E]. inversion E as [[E1 E2]]. split; auto. split; auto.
    destruct r as [|x r]; [vm_compute in N; discriminate|]. destruct b as [|y b]; [inversion R|]. apply chars_first in R as [-> _]. exists b.
    assert (X : itemOf (x :: r) = 10) by (apply Z.eqb_eq; now rewrite item_newline).
    assert (Y : snd (DecodeRune (x :: r)) = 1%nat).
    { assert (I : invalid (x :: r) = false) by (unfold itemOf in X; destruct (invalid (x :: r)); [discriminate|reflexivity]).
      destruct (decode_valid (x :: r) ltac:(discriminate) I) as [SC EQ]. rewrite EQ. rewrite X in *. now rewrite (proj1 (decode_utf8 _ _ SC)). }
    now rewrite X, Y.
Qed.
