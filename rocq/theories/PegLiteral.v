(** Constant declarations. *)
From Coq Require Import ZArith String Ascii List Bool Lia ZifyBool ZifyNat.
From Verif Require Import Base Ast SyntaxSpec SyntaxForm PegUtf8 PegLexical PegSound PegComplete PegSpace PegShape PegPrint.
Import ListNotations.
Open Scope string_scope.
Open Scope list_scope.
Open Scope Z_scope.

Lemma forallb_weaken : forall (p q : Z -> bool) l, (forall c, p c = true -> q c = true) -> forallb p l = true -> forallb q l = true.
Proof. intros p q l H F. rewrite forallb_forall in *. auto. Qed.
Lemma Literal_prefix : forall v ss i r, Literal v ss i r -> exists k, i = k ++ r /\ forallb later_ k = true /\
  (stops later_ r -> numeral k v).
Proof.
  assert (E : (forall c, digit16 c = true -> later_ c = true) /\ (forall c, digit10 c = true -> later_ c = true) /\
              (forall c, digit8 c = true -> later_ c = true)).
  { repeat split; intros c Hc; unfold digit16, digit10, digit8, between in *; chars. }
  destruct E as (E16 & E10 & E8).
  intros v ss i r (_ & _ & [(ds & m & -> & (N & F & _ & ->) & ->)|[(ds & m & -> & (N & F & _ & ->) & ->)|[(ds & Hd & (N & F & _ & ->) & ->)|(-> & S & -> & X)]]]).
  - exists (points "0x" ++ ds). split; [apply app_assoc|]. split; [|intros _; apply numeral_hex; auto].
    rewrite forallb_app. rewrite (forallb_weaken _ _ _ E16 F). reflexivity.
  - exists (points "0" ++ ds). split; [apply app_assoc|]. split; [|intros _; apply numeral_oct; auto].
    rewrite forallb_app. rewrite (forallb_weaken _ _ _ E8 F). reflexivity.
  - exists ds. split; auto. split; [|intros _; apply numeral_dec; auto]. exact (forallb_weaken _ _ _ E10 F).
  - exists (points "0"). split; auto. split; auto. intros _. apply numeral_zero.
Qed.
Lemma numeral_literal : forall k v r, numeral k v -> v < 2 ^ 63 -> stops later_ r -> Literal v [] (k ++ r) r.
Proof.
  intros k v r H L S. split; auto. split; auto.
  assert (C : forall class, (forall c, class c = true -> later_ c = true) -> stops class r).
  { intros class C. destruct r as [|x r]; cbn in *; auto. destruct (class x) eqn:Ex; auto. rewrite (C _ Ex) in S. discriminate. }
  destruct H as [ds N F Hd | ds N F | ds N F | ].
  - right. right. left. exists ds. repeat (split; auto). apply C. intros c Hc. chars.
  - right. left. exists ds, (ds ++ r). split; [symmetry; apply app_assoc|]. split; auto. repeat (split; auto). apply C. intros c Hc. chars.
  - left. exists ds, (ds ++ r). split; [symmetry; apply app_assoc|]. split; auto. repeat (split; auto). apply C.
    intros c Hc. unfold digit16 in Hc. chars.
  - right. right. right. split; auto. split; [apply C; intros c Hc; chars|]. split; auto.
    intros (h & m & -> & _). cbn in S. discriminate.
Qed.

Lemma gap_plain : forall u ss c i r, ~ separator c -> gap u ss (c :: i) r -> r = c :: i.
Proof. intros u ss c i r N [_ B]. eapply plain_blanks; eauto. Qed.

(** Everything before the literal. *)
Lemma const_inv : forall n lit a ss r, isConstant n -> forallb later_ lit = true -> lit <> [] ->
  ConstDecl a ss (constSource n lit) r ->
  exists v, numeral lit v /\ v < 2 ^ 63 /\ a = Const_ (mkConst n v) /\ ss = [] /\ r = [].
Proof.
  intros n lit a ss r Hn Hl Nl (u1 & s1 & t1 & m1 & T1 & (u2 & s2 & t2 & m2 & H2 & (nm & s3 & t3 & m3 & H3 & (u4 & s4 & t4 & m4 & H4 &
    (u5 & s5 & t5 & m5 & T5 & (u6 & s6 & t6 & m6 & H6 & (v & s7 & t7 & m7 & H7 & (u8 & s8 & t8 & m8 & H8 &
    (u9 & s9 & t9 & m9 & T9 & (-> & -> & E) & ->) & ->) & ->) & ->) & ->) & ->) & ->) & ->) & ->). subst m9.
  destruct T1 as [-> T1]. unfold constSource in T1. cbn in T1. inversion T1 as [T1']. clear T1. subst m1. fold (points n) in *.
  destruct (w_ConstIdentifier n Hn) as (cn & Sn & Bn & Wn).
  assert (Ecn : cn = points n).
  { specialize (Wn [] I). destruct Wn as (_ & c & cs & F & Fs & _ & Ei & ->). rewrite !app_nil_r in Ei. subst cn.
    symmetry. apply points_named. cbn [forallb]. rewrite (upper_later _ Fs). chars. }
  subst cn.
  assert (B2 : gap1 tt [] (32 :: points n ++ points " = " ++ lit ++ points ";") (points n ++ points " = " ++ lit ++ points ";")).
  { apply (st_gap1 (points n ++ points " = " ++ lit ++ points ";")). apply Bn. }
  pose proof (gap1_blanks _ _ _ _ H2) as [-> Bl]. pose proof (gap1_blanks _ _ _ _ B2) as [_ Bl2].
  assert (m2 = points n ++ points " = " ++ lit ++ points ";").
  { eapply blanks_det; [exact Bl|]. exact Bl2. }
  subst m2. pose proof (Wn (points " = " ++ lit ++ points ";") eq_refl) as W.
  pose proof H3 as (-> & _).
  destruct (gives_fun _ _ _ _ _ _ _ _ _ (cident_gives _ _ _ _ H3) (cident_gives _ _ _ _ W)) as (-> & _ & ->).
  destruct H4 as [-> B4]. assert (m4 = points "= " ++ lit ++ points ";").
  { eapply blanks_det; [exact B4|]. eapply blanks_more; [apply blank_char; cbn; auto|]. apply (no_blank (points "= " ++ lit ++ points ";")). cbn. lia. }
  subst m4. destruct T5 as [-> T5]. cbn in T5. inversion T5 as [T5']. clear T5. subst m5.
  destruct lit as [|c0 lit]; [contradiction|]. pose proof Hl as Hl0. cbn [forallb] in Hl0. apply andb_prop in Hl0. destruct Hl0 as [Hc0 _].
  destruct H6 as [-> B6]. assert (m6 = (c0 :: lit) ++ points ";").
  { eapply blanks_det; [exact B6|]. eapply blanks_more; [apply blank_char; cbn; auto|].
    apply (no_blank ((c0 :: lit) ++ points ";")). cbn. chars. }
  subst m6. pose proof H7 as (-> & Lv & _). destruct (Literal_prefix _ _ _ _ H7) as (k & Ek & Fk & Nk).
  destruct H8 as [-> B8]. destruct T9 as [-> T9].
  assert (K : k = c0 :: lit /\ m7 = points ";").
  { apply app_eq_app in Ek. destruct Ek as (l & [[E1 E2]|[E1 E2]]).
    - destruct l as [|x l]; [rewrite app_nil_r in E1; cbn [app] in E2; split; congruence|].
      rewrite E1 in Hl. rewrite forallb_app in Hl. apply andb_prop in Hl. destruct Hl as [_ Hl].
      cbn [forallb] in Hl. apply andb_prop in Hl. destruct Hl as [Hx _]. subst m7. cbn [app] in B8.
      apply plain_blanks in B8; [|unfold separator; cbn; chars]. rewrite B8 in T9. cbn in T9. inversion T9; subst x. discriminate.
    - destruct l as [|x l]; [rewrite app_nil_r in E1; cbn [app] in E2; split; congruence|].
      rewrite E1 in Fk. rewrite forallb_app in Fk. apply andb_prop in Fk. destruct Fk as [_ Fk].
      cbn [forallb] in Fk. apply andb_prop in Fk. destruct Fk as [Hx _]. cbn in E2. inversion E2; subst x. discriminate. }
  destruct K as [-> ->]. exists v. split; [apply Nk; reflexivity|]. split; auto. split; auto. split; auto.
  apply plain_blanks in B8; [|unfold separator; cbn; lia]. subst m8. cbn in T9. inversion T9. auto.
Qed.

Theorem const_denotes : forall n lit f, isConstant n -> lit <> [] -> forallb later_ lit = true ->
  denotes (utf8 (constSource n lit)) f <-> exists v, numeral lit v /\ v < 2 ^ 63 /\ f = mkFile [mkConst n v] [] [] [].
Proof.
  intros n lit f Hn Nl Hl.
  assert (Sc : Forall scalar (constSource n lit)).
  { destruct (w_ConstIdentifier n Hn) as (cn & Sn & _ & Wn).
    assert (Ecn : cn = points n).
    { specialize (Wn [] I). destruct Wn as (_ & c & cs & F & Fs & _ & Ei & ->). rewrite !app_nil_r in Ei. subst cn.
      symmetry. apply points_named. cbn [forallb]. rewrite (upper_later _ Fs). chars. }
    subst cn. unfold constSource. repeat (apply Forall_app; split); auto; try (apply points_scalar; reflexivity). apply later_scalar; auto. }
  split.
  - intros (cs & ds & inline & S0 & Eu & (l & s1 & s2 & m & H & (u & s3 & s4 & k & [-> B] & (-> & -> & Em) & ->) & ->) & ->). subst k.
    assert (cs = constSource n lit) by (rewrite <- (runes_utf8 _ S0), <- (runes_utf8 _ Sc); congruence). subst cs.
    inversion H as [i | a l' t1 t2 i m0 r H1 H2]; subst.
    + exfalso. unfold constSource in B. cbn in B. apply plain_blanks in B; [discriminate|]. unfold separator; cbn; lia.
    + destruct H1 as (u1 & t3 & t4 & m1 & [-> B1] & H1 & ->). unfold constSource in B1. cbn in B1.
      apply plain_blanks in B1; [|unfold separator; cbn; lia]. subst m1.
      change (99 :: 111 :: 110 :: 115 :: 116 :: 32 :: points n ++ points " = " ++ lit ++ points ";") with (constSource n lit) in H1.
      assert (HC : ConstDecl a t4 (constSource n lit) m0).
      { destruct H1 as [[[[H1|H1]|H1]|H1]|H1]; auto; exfalso.
        - destruct H1 as (u2 & x1 & x2 & x3 & (_ & X) & _). unfold constSource in X. cbn in X. discriminate.
        - destruct H1 as (s & x1 & x2 & x3 & [j H1] & _). apply StructN_head in H1. discriminate.
        - apply C_ExternDecl in H1. destruct H1. discriminate.
        - apply C_PragmaDecl in H1. destruct H1. discriminate. }
      destruct (const_inv n lit a t4 m0 Hn Hl Nl HC) as (v & Nv & Lv & -> & -> & ->). exists v. split; auto. split; auto.
      inversion H2 as [i | b l2 x1 x2 i m2 r K1 K2]; subst; auto.
      exfalso. destruct K1 as (u2 & y1 & y2 & y3 & [_ B2] & K1 & _).
      assert (y3 = []) by (inversion B2 as [|? ? ? X]; subst; auto; inversion X). subst y3.
      destruct K1 as [[[[K1|K1]|K1]|K1]|K1].
      * apply C_ConstDecl in K1. destruct K1. discriminate.
      * destruct K1 as (? & ? & ? & ? & (_ & X) & _). discriminate.
      * destruct K1 as (s & ? & ? & ? & [j K1] & _). apply StructN_head in K1. discriminate.
      * apply C_ExternDecl in K1. destruct K1. discriminate.
      * apply C_PragmaDecl in K1. destruct K1. discriminate.
  - intros (v & Nv & Lv & ->). exists (constSource n lit), [Const_ (mkConst n v)], []. split; auto. split; auto. split; auto.
    exists [Const_ (mkConst n v)], [], [], []. split; [|split; auto].
    + eapply st_star; [|constructor]. unfold Decl. eapply st; [apply st_gap; unfold plain, separator; cbn; lia|].
      left. left. left. left. unfold ConstDecl, constSource. eapply st; [apply (st_tok "const")|].
      destruct (w_ConstIdentifier n Hn) as (cn & Sn & Bn & Wn).
      assert (Ecn : cn = points n).
      { specialize (Wn [] I). destruct Wn as (_ & c & cs & F & Fs & _ & Ei & ->). rewrite !app_nil_r in Ei. subst cn.
        symmetry. apply points_named. cbn [forallb]. rewrite (upper_later _ Fs). chars. }
      subst cn. eapply st; [apply (st_gap1 (points n ++ points " = " ++ lit ++ points ";")); apply Bn|].
      eapply st; [apply Wn; reflexivity|]. eapply st; [apply (st_gaps (points "= " ++ lit ++ points ";")); unfold plain, separator; cbn; lia|].
      eapply st; [apply (st_tok "=" (points " " ++ lit ++ points ";"))|].
      eapply st.
      { apply (st_gaps (lit ++ points ";")). destruct lit as [|c0 lit]; [contradiction|].
        cbn [forallb] in Hl. apply andb_prop in Hl. destruct Hl as [Hc0 _]. unfold plain, separator. cbn. chars. }
      eapply st; [apply numeral_literal; [exact Nv|exact Lv|reflexivity]|].
      eapply st; [apply st_gap; unfold plain, separator; cbn; lia|]. eapply st; [apply (st_tok ";" [])|]. apply st_empty.
    + eapply st; [apply st_gap; exact I|]. apply st_empty.
Qed.
