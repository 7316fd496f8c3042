(** The text of a set, and reading it. *)
From Coq Require Import ZArith String Ascii List Bool Lia ZifyBool ZifyNat.
From Verif Require Import Base IntervalsModel IntervalsSpec IntervalsText IntervalsTextSpec.
Import ListNotations.
Open Scope string_scope.
Open Scope list_scope.
Open Scope Z_scope.
Ltac Zify.zify_post_hook ::= Z.div_mod_to_equations.

Notation chars := list_ascii_of_string.
Lemma chars_app : forall a b, chars (a ++ b) = chars a ++ chars b.
Proof. induction a as [|c a IH]; intros b; cbn; [reflexivity|]. now rewrite IH. Qed.
Lemma chars_inj : forall a b, chars a = chars b -> a = b.
Proof. intros a b E. rewrite <- (string_of_list_ascii_of_string a), <- (string_of_list_ascii_of_string b). now rewrite E. Qed.

Lemma digit_is : forall d, 0 <= d <= 9 -> digitIs (digitOf d) d.
Proof. intros d H. split; [exact H|]. unfold digitOf. rewrite nat_ascii_embedding by lia. lia. Qed.
Lemma digits_number : forall n x, 0 <= x < 10 ^ Z.of_nat (S n) -> number (chars (digitsOf (S n) x)) x.
Proof.
  induction n as [|n IH]; intros x H.
  - change (10 ^ Z.of_nat 1) with 10 in H. cbn [digitsOf]. destruct (Z.ltb_spec x 10) as [L|L]; [|lia]. cbn [append chars].
    rewrite Z.mod_small by lia. constructor. apply digit_is. lia.
  - assert (X : digitsOf (S (S n)) x = ((if (x <? 10)%Z then "" else digitsOf (S n) (x / 10)%Z) ++ String (digitOf (x mod 10)%Z) "")%string) by reflexivity.
    rewrite X. clear X. destruct (Z.ltb_spec x 10) as [L|L].
    + cbn [append chars]. rewrite Z.mod_small by lia. constructor. apply digit_is. lia.
    + rewrite chars_app. cbn [chars]. replace (number (chars (digitsOf (S n) (x / 10)) ++ [digitOf (x mod 10)]) x) with (number (chars (digitsOf (S n) (x / 10)) ++ [digitOf (x mod 10)]) (10 * (x / 10) + x mod 10)) by (f_equal; lia). constructor; [|apply digit_is; lia].
      apply IH. rewrite (Nat2Z.inj_succ (S n)) in H. rewrite Z.pow_succ_r in H by lia. lia.
Qed.
Lemma format_number : forall x, 0 <= x < two64 -> number (chars (FormatUint x)) x.
Proof. intros x H. apply digits_number. change (10 ^ Z.of_nat 20) with 100000000000000000000. unfold two64 in H. lia. Qed.

Lemma digit_fun : forall c d d', digitIs c d -> digitIs c d' -> d = d'.
Proof. intros c d d' [_ A] [_ B]. lia. Qed.
Lemma number_ne : forall l x, number l x -> l <> [].
Proof. intros l x H. destruct H; [discriminate|]. destruct l; discriminate. Qed.
Lemma number_fun : forall l x, number l x -> forall x', number l x' -> x = x'.
Proof.
  intros l x H. induction H as [c d D|l x c d N IH D]; intros x' H'.
  - inversion H' as [c' d' D' E|l' y c' d' N' D' E]; subst; [eapply digit_fun; eauto|].
    apply number_ne in N'. destruct l' as [|? l']; [contradiction|]. destruct l'; discriminate.
  - inversion H' as [c' d' D' E|l' y c' d' N' D' E]; subst.
    + apply number_ne in N. destruct l as [|? l]; [contradiction|]. destruct l; discriminate.
    + apply app_inj_tail in E as [-> ->]. rewrite (IH _ N'), (digit_fun _ _ _ D D'). reflexivity.
Qed.
Lemma number_digits : forall l x, number l x -> forall c, In c l -> exists d, digitIs c d.
Proof.
  intros l x H. induction H as [c d D|l x c d N IH D]; intros c' I.
  - destruct I as [<-|[]]; eauto.
  - apply in_app_or in I as [I|[<-|[]]]; eauto.
Qed.
Lemma not_digit : forall c, c = ","%char \/ c = "-"%char -> forall d, ~ digitIs c d.
Proof.
  intros c [-> | ->] d [A B].
  - change (Z.of_nat (nat_of_ascii ",")) with 44 in B. lia.
  - change (Z.of_nat (nat_of_ascii "-")) with 45 in B. lia.
Qed.

Lemma span_fun : forall l a b a' b', spanOf l a b -> spanOf l a' b' -> a = a' /\ b = b'.
Proof.
  assert (NB : forall l x l1 l2, number l x -> l = l1 ++ "-"%char :: l2 -> False).
  { intros l x l1 l2 N ->. destruct (number_digits _ _ N "-"%char) as [d D]; [apply in_or_app; right; now left|].
    eapply not_digit; [|exact D]. auto. }
  intros l a b a' b' H H'. destruct H as [l x N|l x m y N M].
  - inversion H' as [? ? N'|l1 ? l2 ? N1 N2 E]; subst; [split; eapply number_fun; eauto|exact (False_ind _ (NB _ _ _ _ N eq_refl))].
  - inversion H' as [? ? N'|l1 ? l2 ? N1 N2 E]; subst; [exact (False_ind _ (NB _ _ _ _ N' eq_refl))|].
    assert (X : l1 = l /\ l2 = m).
    { clear H'. revert l N l1 N1 E. 
      assert (G : forall l, ~ In "-"%char l -> forall l1, ~ In "-"%char l1 -> l1 ++ "-"%char :: l2 = l ++ "-"%char :: m -> l1 = l /\ l2 = m).
      { induction l as [|c l IH]; intros NI [|c1 l1] NI1 E; cbn in E.
        - injection E as ->. auto.
        - injection E as -> _. exfalso. apply NI1. now left.
        - injection E as <- _. exfalso. apply NI. now left.
        - injection E as -> E. destruct (IH ltac:(intros I; apply NI; now right) l1 ltac:(intros I; apply NI1; now right) E) as [-> ->]. auto. }
      intros l N l1 N1 E. apply G; auto; intros I.
      - destruct (number_digits _ _ N _ I) as [d D]. eapply not_digit; [|exact D]. auto.
      - destruct (number_digits _ _ N1 _ I) as [d D]. eapply not_digit; [|exact D]. auto. }
    destruct X as [-> ->]. split; eapply number_fun; eauto.
Qed.

Lemma cut_comma : forall t, ~ In ","%char t -> forall t', ~ In ","%char t' -> forall s s', t ++ ","%char :: s = t' ++ ","%char :: s' -> t = t' /\ s = s'.
Proof.
  induction t as [|c t IH]; intros N [|c' t'] N' s s' E; cbn in E.
  - injection E as ->. auto.
  - injection E as <- _. exfalso. apply N'. now left.
  - injection E as -> _. exfalso. apply N. now left.
  - injection E as -> E. destruct (IH ltac:(intros I; apply N; now right) t' ltac:(intros I; apply N'; now right) _ _ E) as [-> ->]. auto.
Qed.
Lemma parts_fun : forall l ts, parts l ts -> forall ts', parts l ts' -> ts = ts'.
Proof.
  intros l ts H. induction H as [|t NE NI|t s ts NI NE P IH]; intros ts' H'.
  - inversion H' as [|? X|t' s' ? ? ? ? E]; subst; auto; [contradiction|]. destruct t'; discriminate.
  - inversion H' as [|? X|t' s' ? ? ? ? E]; subst; auto; [contradiction|]. exfalso. apply NI. apply in_or_app. right. now left.
  - inversion H' as [E|? X NI' E|t' s' ? NI' NE' P' E]; subst.
    + destruct t; discriminate.
    + exfalso. apply NI'. apply in_or_app. right. now left.
    + apply cut_comma in E as [-> ->]; auto. now rewrite (IH _ P').
Qed.

(** What is printed. *)
Lemma interval_span : forall i, valid i -> spanOf (chars (iString i)) (lo i) (hi i).
Proof.
  intros i (L & LH & H). unfold iString, isSingle, Size.
  assert (B : 0 <= lo i < two64 /\ 0 <= hi i < two64) by lia. destruct B as [B1 B2].
  assert (S : (u64 (u64 (hi i - lo i) + 1) =? 1) = (lo i =? hi i)).
  { unfold u64. rewrite (Z.mod_small (hi i - lo i)) by lia. unfold two64 in *. clear - L LH H. lia. }
  rewrite S. destruct (Z.eqb_spec (lo i) (hi i)) as [E|E].
  - rewrite <- E. constructor. now apply format_number.
  - rewrite !chars_app. cbn [append chars app]. constructor; now apply format_number.
Qed.
Lemma span_plain : forall t a b, spanOf t a b -> t <> [] /\ ~ In ","%char t.
Proof.
  assert (NC : forall l x, number l x -> ~ In ","%char l).
  { intros l x N I. destruct (number_digits _ _ N _ I) as [d D]. eapply not_digit; [|exact D]. auto. }
  intros t a b H. destruct H as [l x N|l x m y N M].
  - split; [exact (number_ne _ _ N)|exact (NC _ _ N)].
  - split; [destruct l; discriminate|]. intros I. apply in_app_or in I as [I|[I|I]]; [exact (NC _ _ N I)|discriminate|exact (NC _ _ M I)].
Qed.
Lemma commas_parts : forall l, Forall (fun s => chars s <> [] /\ ~ In ","%char (chars s)) l -> parts (chars (commas l)) (map chars l).
Proof.
  induction l as [|x l IH]; intros F; [constructor|]. inversion F as [|? ? [NE NI] F']; subst. specialize (IH F').
  destruct l as [|y l].
  - cbn [commas map]. now constructor.
  - cbn [commas map] in *. rewrite !chars_app. cbn [append chars app]. constructor; auto.
    inversion F' as [|? ? [NE' _] _]; subst. clear - NE'. destruct l as [|z l]; cbn [commas]; auto. rewrite chars_app.
    destruct (chars y); [contradiction|discriminate].
Qed.
Lemma set_parts : forall s, wf_set s -> parts (chars (setString s)) (map (fun i => chars (iString i)) (intervals s)).
Proof.
  intros s [V _]. unfold setString. rewrite <- (map_map iString chars). apply commas_parts.
  apply Forall_forall. intros t I. apply in_map_iff in I as (i & <- & I). rewrite Forall_forall in V.
  eapply span_plain. apply interval_span. auto.
Qed.
Theorem set_text : forall s, wf_set s -> forall x, Contains s x = true <-> lists (setString s) x.
Proof.
  intros s W x. pose proof (set_parts s W) as P. destruct W as [V _]. rewrite Forall_forall in V. unfold Contains. rewrite existsb_exists. split.
  - intros (i & I & C). unfold iContains in C. exists (map (fun i => chars (iString i)) (intervals s)), (chars (iString i)), (lo i), (hi i).
    split; [exact P|]. split; [apply in_map_iff; eauto|]. split; [apply interval_span; auto|lia].
  - intros (ts & t & a & b & P' & I & SP & H). rewrite <- (parts_fun _ _ P _ P') in I. apply in_map_iff in I as (i & <- & I).
    destruct (span_fun _ _ _ _ _ SP (interval_span i (V i I))) as [-> ->]. exists i. split; auto. unfold iContains. lia.
Qed.
Theorem set_text_inj : forall s s', wf_set s -> wf_set s' -> setString s = setString s' -> s = s'.
Proof.
  intros s s' W W' E. pose proof (set_parts s W) as P. pose proof (set_parts s' W') as P'. rewrite E in P. pose proof (parts_fun _ _ P _ P') as X.
  destruct W as [V _], W' as [V' _], s as [l], s' as [l']. cbn [intervals] in *. f_equal. clear - V V' X.
  revert l' V' X. induction l as [|i l IH]; intros [|i' l'] V' X; try discriminate; [reflexivity|]. cbn [map] in X.
  assert (X1 : chars (iString i) = chars (iString i')) by congruence.
  assert (X2 : map (fun i => chars (iString i)) l = map (fun i => chars (iString i)) l') by congruence.
  inversion V; inversion V'; subst. f_equal; [|apply IH; auto].
  pose proof (interval_span i ltac:(auto)) as S1. pose proof (interval_span i' ltac:(auto)) as S2. rewrite X1 in S1.
  destruct (span_fun _ _ _ _ _ S1 S2) as [A B]. destruct i, i'. cbn in *. congruence.
Qed.
