(** Runes and UTF-8. *)
From Coq Require Import ZArith String Ascii List Bool Lia ZifyBool ZifyNat.
From Verif Require Import Base Ast PegModel PegEngine PegRunes SyntaxSpec.
Import ListNotations.
Open Scope string_scope.
Open Scope list_scope.
Open Scope Z_scope.
Ltac Zify.zify_post_hook ::= Z.div_mod_to_equations.

Lemma byte_octet : forall b, 0 <= b < 256 -> byte (octet b) = b.
Proof.
  intros b H. unfold byte, octet. rewrite N_ascii_embedding by lia. lia.
Qed.
Lemma octet_byte : forall c, octet (byte c) = c.
Proof. intros c. unfold byte, octet. rewrite N2Z.id. apply ascii_N_embedding. Qed.

Ltac ifs := repeat match goal with
  | |- context [if ?x then _ else _] => destruct x eqn:?
  end.

(** Decoding an encoded scalar value. *)
Lemma decode_utf8 : forall c t, scalar c ->
  DecodeRune (utf8_1 c ++ t) = (c, length (utf8_1 c)) /\ invalid (utf8_1 c ++ t) = false.
Proof.
  intros c t S.
  assert (D : DecodeRune (utf8_1 c ++ t) = (c, length (utf8_1 c))).
  { unfold scalar in S. unfold utf8_1.
    destruct (c <? 128) eqn:E1; [|destruct (c <? 2048) eqn:E2; [|destruct (c <? 65536) eqn:E3]];
      cbn [map app length]; unfold DecodeRune; cbv zeta.
    - rewrite byte_octet by lia. rewrite E1. reflexivity.
    - rewrite !byte_octet by lia. unfold cont, inR.
      destruct (192 + c / 64 <? 128) eqn:A1; [exfalso; lia|].
      destruct ((194 <=? 192 + c / 64) && (192 + c / 64 <=? 223)) eqn:A2; [|exfalso; lia].
      destruct ((128 <=? 128 + c mod 64) && (128 + c mod 64 <=? 191)) eqn:A3; [|exfalso; lia].
      f_equal. lia.
    - rewrite !byte_octet by lia. unfold cont, inR.
      destruct (224 + c / 4096 <? 128) eqn:A1; [exfalso; lia|].
      destruct ((194 <=? 224 + c / 4096) && (224 + c / 4096 <=? 223)) eqn:A2; [exfalso; lia|].
      destruct ((224 <=? 224 + c / 4096) && (224 + c / 4096 <=? 239)) eqn:A3; [|exfalso; lia].
      set (lo := if 224 + c / 4096 =? 224 then 160 else 128).
      set (hi := if 224 + c / 4096 =? 237 then 159 else 191).
      assert (Hlo : lo <= 128 + (c / 64) mod 64) by (unfold lo; ifs; lia).
      assert (Hhi : 128 + (c / 64) mod 64 <= hi) by (unfold hi; ifs; lia).
      destruct ((lo <=? 128 + (c / 64) mod 64) && (128 + (c / 64) mod 64 <=? hi) &&
                ((128 <=? 128 + c mod 64) && (128 + c mod 64 <=? 191))) eqn:A4.
      2: { exfalso. clearbody lo hi. lia. }
      f_equal. clear. lia.
    - assert (B : 0 <= c / 262144 <= 4) by lia.
      rewrite !byte_octet by lia. unfold cont, inR.
      destruct (240 + c / 262144 <? 128) eqn:A1; [exfalso; lia|].
      destruct ((194 <=? 240 + c / 262144) && (240 + c / 262144 <=? 223)) eqn:A2; [exfalso; lia|].
      destruct ((224 <=? 240 + c / 262144) && (240 + c / 262144 <=? 239)) eqn:A3; [exfalso; lia|].
      destruct ((240 <=? 240 + c / 262144) && (240 + c / 262144 <=? 244)) eqn:A5; [|exfalso; lia].
      set (lo := if 240 + c / 262144 =? 240 then 144 else 128).
      set (hi := if 240 + c / 262144 =? 244 then 143 else 191).
      assert (Hlo : lo <= 128 + (c / 4096) mod 64) by (unfold lo; ifs; lia).
      assert (Hhi : 128 + (c / 4096) mod 64 <= hi) by (unfold hi; ifs; lia).
      assert (Hm : 0 <= (c / 64) mod 64 < 64) by (apply Z.mod_pos_bound; lia).
      assert (Hm2 : 0 <= c mod 64 < 64) by (apply Z.mod_pos_bound; lia).
      destruct ((lo <=? 128 + (c / 4096) mod 64) && (128 + (c / 4096) mod 64 <=? hi) &&
                ((128 <=? 128 + (c / 64) mod 64) && (128 + (c / 64) mod 64 <=? 191)) &&
                ((128 <=? 128 + c mod 64) && (128 + c mod 64 <=? 191))) eqn:A4.
      2: { exfalso. clearbody lo hi.
           generalize dependent ((c / 4096) mod 64). generalize dependent ((c / 64) mod 64).
           generalize dependent (c mod 64). clear. intros. lia. }
      f_equal. clear. lia. }
  split; auto.
  unfold invalid. rewrite D. destruct ((c =? RuneError) && (length (utf8_1 c) =? 1)%nat) eqn:E; auto.
  exfalso. unfold RuneError in E. assert (c = 65533) by lia. subst c. cbn in E. discriminate.
Qed.

Lemma utf8_cons : forall c cs, utf8 (c :: cs) = utf8_1 c ++ utf8 cs.
Proof. reflexivity. Qed.
Lemma utf8_nonempty : forall c t, utf8_1 c ++ t <> [].
Proof.
  intros c t. unfold utf8_1. ifs; cbn; discriminate.
Qed.

Lemma runes_utf8 : forall cs, Forall scalar cs -> runes (utf8 cs) = cs.
Proof.
  induction 1 as [|c cs H F IH]; auto. rewrite utf8_cons.
  rewrite runes_cons by apply utf8_nonempty.
  destruct (decode_utf8 c (utf8 cs) H) as [D I]. unfold itemOf. rewrite I, D. cbn [fst snd].
  rewrite skipn_app, skipn_all, Nat.sub_diag. cbn [app skipn]. rewrite IH. reflexivity.
Qed.

Lemma scalar_good : forall c, scalar c -> good c.
Proof. unfold scalar, good. intros. lia. Qed.

(** A valid rune is encoded by the bytes it was decoded from. *)
Lemma decode_valid : forall t, t <> [] -> invalid t = false ->
  scalar (itemOf t) /\ t = utf8_1 (itemOf t) ++ skipn (snd (DecodeRune t)) t.
Proof.
  intros t N I. unfold itemOf. rewrite I. unfold invalid in I.
  destruct (DecodeRune t) as [r w] eqn:D. cbn [fst snd].
  destruct t as [|c0 t]; [congruence|]. clear N.
  pose proof (byte_range c0) as B0.
  unfold DecodeRune, cont, inR in D. cbv zeta in D.
  assert (X : r = RuneError -> w = 1%nat -> False).
  { intros -> ->. cbn in I. discriminate. }
  assert (Y : forall (b : bool) x, (if b then x else (RuneError, 1%nat)) = (r, w) -> b = true /\ x = (r, w)).
  { intros [] x E; auto. exfalso. inversion E. auto. }
  assert (Z0 : (RuneError, 1%nat) = (r, w) -> False) by (intros E; inversion E; auto).
  unfold scalar, utf8_1.
  destruct (byte c0 <? 128) eqn:E0.
  - inversion D; subst. rewrite E0. cbn. rewrite octet_byte. split; [lia|reflexivity].
  - destruct ((194 <=? byte c0) && (byte c0 <=? 223)) eqn:E1;
    [|destruct ((224 <=? byte c0) && (byte c0 <=? 239)) eqn:E2;
    [|destruct ((240 <=? byte c0) && (byte c0 <=? 244)) eqn:E3; [|exfalso; auto]]].
    + destruct t as [|c1 t]; [exfalso; auto|]. pose proof (byte_range c1) as B1.
      apply Y in D. destruct D as [D0 D]. inversion D; subst r w. clear D X Y Z0 I.
      destruct ((byte c0 - 192) * 64 + (byte c1 - 128) <? 128) eqn:F1; [exfalso; lia|].
      destruct ((byte c0 - 192) * 64 + (byte c1 - 128) <? 2048) eqn:F2; [|exfalso; lia].
      split; [lia|]. cbn [map app skipn].
      replace (192 + ((byte c0 - 192) * 64 + (byte c1 - 128)) / 64) with (byte c0) by lia.
      replace (128 + ((byte c0 - 192) * 64 + (byte c1 - 128)) mod 64) with (byte c1) by lia.
      rewrite !octet_byte. reflexivity.
    + destruct t as [|c1 [|c2 t]]; [exfalso; auto|exfalso; auto|].
      pose proof (byte_range c1) as B1. pose proof (byte_range c2) as B2.
      apply Y in D. destruct D as [D0 D]. inversion D; subst r w. clear D X Y Z0 I.
      assert (D1 : (if byte c0 =? 224 then 160 else 128) <= byte c1 <= (if byte c0 =? 237 then 159 else 191) /\ 128 <= byte c2 <= 191).
      { destruct (byte c0 =? 224), (byte c0 =? 237); lia. }
      assert (D2 : 128 <= byte c1 <= 191 /\ (byte c0 = 224 -> 160 <= byte c1) /\ (byte c0 = 237 -> byte c1 <= 159)).
      { destruct (byte c0 =? 224) eqn:G1, (byte c0 =? 237) eqn:G2; lia. }
      clear D0. destruct D1 as [_ D1]. destruct D2 as (D2 & D3 & D4).
      set (v := (byte c0 - 224) * 4096 + (byte c1 - 128) * 64 + (byte c2 - 128)).
      assert (V0 : v / 4096 = byte c0 - 224) by (unfold v; lia).
      assert (V1 : (v / 64) mod 64 = byte c1 - 128) by (unfold v; lia).
      assert (V2 : v mod 64 = byte c2 - 128) by (unfold v; lia).
      destruct (v <? 128) eqn:F1; [exfalso; unfold v in *; lia|].
      destruct (v <? 2048) eqn:F2; [exfalso; unfold v in *; lia|].
      destruct (v <? 65536) eqn:F3; [|exfalso; unfold v in *; lia].
      split; [unfold v in *; lia|]. cbn [map app skipn].
      rewrite V0, V1, V2.
      replace (224 + (byte c0 - 224)) with (byte c0) by lia.
      replace (128 + (byte c1 - 128)) with (byte c1) by lia.
      replace (128 + (byte c2 - 128)) with (byte c2) by lia.
      rewrite !octet_byte. reflexivity.
    + destruct t as [|c1 [|c2 [|c3 t]]]; [exfalso; auto|exfalso; auto|exfalso; auto|].
      pose proof (byte_range c1) as B1. pose proof (byte_range c2) as B2. pose proof (byte_range c3) as B3.
      apply Y in D. destruct D as [D0 D]. inversion D; subst r w. clear D X Y Z0 I.
      assert (D2 : 128 <= byte c1 <= 191 /\ (byte c0 = 240 -> 144 <= byte c1) /\ (byte c0 = 244 -> byte c1 <= 143)
                   /\ 128 <= byte c2 <= 191 /\ 128 <= byte c3 <= 191).
      { destruct (byte c0 =? 240) eqn:G1, (byte c0 =? 244) eqn:G2; lia. }
      clear D0. destruct D2 as (D2 & D3 & D4 & D5 & D6).
      set (v := (byte c0 - 240) * 262144 + (byte c1 - 128) * 4096 + (byte c2 - 128) * 64 + (byte c3 - 128)).
      assert (V0 : v / 262144 = byte c0 - 240) by (unfold v; lia).
      assert (V1 : (v / 4096) mod 64 = byte c1 - 128) by (unfold v; lia).
      assert (V2 : (v / 64) mod 64 = byte c2 - 128) by (unfold v; lia).
      assert (V3 : v mod 64 = byte c3 - 128) by (unfold v; lia).
      destruct (v <? 128) eqn:F1; [exfalso; unfold v in *; lia|].
      destruct (v <? 2048) eqn:F2; [exfalso; unfold v in *; lia|].
      destruct (v <? 65536) eqn:F3; [exfalso; unfold v in *; lia|].
      split; [unfold v in *; lia|]. cbn [map app skipn].
      rewrite V0, V1, V2, V3.
      replace (240 + (byte c0 - 240)) with (byte c0) by lia.
      replace (128 + (byte c1 - 128)) with (byte c1) by lia.
      replace (128 + (byte c2 - 128)) with (byte c2) by lia.
      replace (128 + (byte c3 - 128)) with (byte c3) by lia.
      rewrite !octet_byte. reflexivity.
Qed.

Lemma good_utf8 : forall t, Forall good (runes t) -> Forall scalar (runes t) /\ t = utf8 (runes t).
Proof.
  intros t. remember (length t) as n eqn:Hn. assert (H : (length t <= n)%nat) by lia. clear Hn.
  revert t H. induction n as [|n IH]; intros t H F.
  - destruct t; [split; [constructor|reflexivity]|cbn in H; lia].
  - destruct t as [|c t0] eqn:Et; [split; [constructor|reflexivity]|]. rewrite <- Et in *.
    assert (Nt : t <> []) by (rewrite Et; discriminate).
    rewrite runes_cons in * by auto. inversion F as [|x y G F']; subst x y.
    apply item_good in G. destruct (decode_valid t Nt G) as [S E].
    pose proof (width t Nt) as W.
    destruct (IH (skipn (snd (DecodeRune t)) t)) as [S2 E2]; auto.
    { rewrite skipn_length. lia. }
    split; [constructor; auto|]. rewrite utf8_cons, <- E2. exact E.
Qed.
