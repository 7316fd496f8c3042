(** The positions in reports are positions in the text. *)
From Coq Require Import ZArith String Ascii List Bool Lia ZifyBool ZifyNat.
From Verif Require Import Base Ast PegModel PegGrammar PegEngine PegRunes PegUtf8 SyntaxSpec PegReport PegReportProofs ReportSpec.
Import ListNotations.
Open Scope string_scope.
Open Scope list_scope.
Open Scope Z_scope.

Lemma newlines_app : forall a b, newlines (a ++ b) = newlines a + newlines b.
Proof. induction a as [|x a IH]; intros b; cbn [app newlines]; [lia|]. rewrite IH. lia. Qed.
Lemma lastLine_app : forall b acc a, lastLine acc (a ++ b) = lastLine (lastLine acc a) b.
Proof. intros b acc a. revert acc. induction a as [|x a IH]; intros acc; [reflexivity|]. cbn [app lastLine]. apply IH. Qed.

(** The position after the runes [cs] if the next rune is [rn]. *)
Definition after (cs : list Z) (rn : Z) : Z * Z :=
  if rn =? 10 then (lineAfter cs + 1, 0) else (lineAfter cs, colAfter cs).

Definition at_ (data : text) (p : position) (r : text) : Prop :=
  exists cs, steps cs data r /\ (line p, col p) = after cs (fst (DecodeRune r)) /\
    offset p = Z.of_nat (length data) - Z.of_nat (length r).
Definition origin : position := mkPosition 1 1 0.
Definition atSome (data : text) (p : position) : Prop := p = origin \/ exists r, at_ data p r.

Record placed (data : text) (s : rst) : Prop := {
  p_pt : at_ data (pt s) (rest (base s));
  p_far : atSome data (far s);
  p_reports : forall r, In r (reports s) -> atSome data (rpos r) }.

Lemma item_newline : forall r, itemOf r =? 10 = (fst (DecodeRune r) =? 10).
Proof.
  intros r. unfold itemOf. destruct (invalid r) eqn:E; [|reflexivity]. unfold invalid in E.
  destruct (DecodeRune r) as [rn w]. cbn [fst]. unfold RuneError in E. lia.
Qed.
Lemma steps_len : forall cs a b, steps cs a b -> (length b <= length a)%nat.
Proof. intros cs a b H. apply steps_bytes in H as (w & ->). rewrite app_length. lia. Qed.
Lemma notEnd : forall s, atEnd s = false -> rest s <> [].
Proof. intros s H E. unfold atEnd in H. rewrite E in H. discriminate. Qed.

Lemma at_next : forall data p r, at_ data p r -> r <> [] ->
  at_ data (next (snd (DecodeRune r)) (fst (DecodeRune (skipn (snd (DecodeRune r)) r))) p) (skipn (snd (DecodeRune r)) r).
Proof.
  intros data p r (cs & S & E & O) N. exists (cs ++ [itemOf r]). pose proof (width r N) as W.
  assert (S1 : steps [itemOf r] r (skipn (snd (DecodeRune r)) r)) by (constructor; auto; constructor).
  split; [eapply steps_app; eauto|]. unfold after in E. rewrite <- item_newline in E.
  unfold after, next, lineAfter, colAfter in *. rewrite newlines_app, lastLine_app. cbn [newlines lastLine].
  set (rn := fst (DecodeRune (skipn (snd (DecodeRune r)) r))). clearbody rn. rewrite skipn_length.
  pose proof (f_equal fst E) as E1. pose proof (f_equal snd E) as E2. cbn [fst snd] in E1, E2. clear E.
  destruct (itemOf r =? 10) eqn:EI; cbn [fst snd] in E1, E2; destruct (rn =? 10) eqn:ER; cbn [line col offset]; rewrite ?app_length; cbn [length]; split;
    try (apply f_equal2; lia); lia.
Qed.

Lemma placed_start : forall data, placed data (startR data).
Proof.
  intros data.
  assert (A : at_ data (next 0 (fst (DecodeRune data)) (mkPosition 1 0 0)) data).
  { exists []. split; [constructor|]. unfold after, next, lineAfter, colAfter. cbn [newlines lastLine length line col offset].
    destruct (_ =? 10); cbn [line col offset]; split; auto; lia. }
  unfold startR, arrive. cbn [base].
  assert (RB : forall e, rest (if invalid data then addErr e (mkPst data [] []) else mkPst data [] []) = data) by (intros; destruct (invalid data); reflexivity).
  rewrite !RB. destruct (invalid data) eqn:V; constructor; cbn [pt far reports base rest addReport withPt withBase addErr]; auto.
  - left. reflexivity.
  - intros r [<-|[]]. right. cbn [rpos]. eauto.
  - left. reflexivity.
  - intros r [].
Qed.
Lemma placed_expr : forall data rules n rule e f s ok v f' s', placed data s -> exprR rules n rule e f s = Ok (ok, v, f', s') -> placed data s'.
Proof.
  intros data rules n rule e f s ok v f' s'. apply expr_keeps.
  - intros x []. constructor; auto.
  - intros b x []. constructor; auto.
  - intros x0 x [A0 B0 C0] [A B C]. constructor; auto.
  - intros l x [A B C]. constructor; auto.
  - intros r x [A B C] E. apply notEnd in E. pose proof (at_next _ _ _ A E) as N.
    assert (RB : rest (read (base x)) = skipn (snd (DecodeRune (rest (base x)))) (rest (base x))) by (unfold read; destruct (invalid _); reflexivity).
    unfold readR, arrive. rewrite RB. destruct (invalid (skipn _ _)); constructor;
      cbn [pt far reports base addReport withPt withBase]; rewrite ?RB; auto.
    intros q J. apply in_app_iff in J as [J|[<-|[]]]; auto. right. cbn [rpos]. eauto.
  - intros b x0 w x [A0 B0 C0] [A B C]. unfold failAt. destruct (Bool.eqb b (inverted x)); [|constructor; auto].
    destruct (_ <? _); [constructor; auto|]. destruct (_ <? _); constructor; auto. right. cbn [far]. eauto.
  - intros x0 r t er x [A0 B0 C0] [A B C]. constructor; auto. cbn [reports addReport]. intros q J.
    apply in_app_iff in J as [J|[<-|[]]]; auto. right. cbn [rpos]. eauto.
Qed.

(** Positions in the part of the text that is UTF-8. *)
Lemma steps_prefix : forall cs data r, steps cs data r -> forall us t, Forall scalar us -> data = utf8 us ++ t ->
  (length data - length r <= length (utf8 us))%nat -> exists b, us = cs ++ b /\ r = utf8 b ++ t.
Proof.
  induction 1 as [d|d cs d' N S IH]; intros us t F E L.
  - exists us. auto.
  - pose proof (width d N) as W. pose proof (steps_len _ _ _ S) as SL. rewrite skipn_length in SL.
    destruct us as [|u us].
    + exfalso. cbn [utf8 flat_map length] in L. lia.
    + inversion F as [|? ? Fu Fs]; subst. rewrite utf8_cons, <- app_assoc in *.
      destruct (decode_utf8 u (utf8 us ++ t) Fu) as [D V].
      assert (IT : itemOf (utf8_1 u ++ utf8 us ++ t) = u) by (unfold itemOf; rewrite V, D; reflexivity).
      rewrite IT in *. rewrite D in *. cbn [snd] in *.
      destruct (IH us t Fs) as (b & -> & ->).
      * rewrite skipn_app, skipn_all, Nat.sub_diag. reflexivity.
      * rewrite skipn_length. rewrite !app_length in *. lia.
      * exists b. auto.
Qed.
