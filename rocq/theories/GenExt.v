(** The decoder on longer input: declarations that do not look at the end of the
    data decode the same value and leave the extra bytes. *)
From Coq Require Import ZArith String List Bool Lia ZifyBool ZifyNat.
From Verif Require Import Base Ast IntervalsModel InspectModel InspectSpec GoLang GenModel GenDecode GenCheck GenSimBody WireSpec WireProofs WireComplete WireFacts GenTerm.
Import ListNotations.
Open Scope string_scope.
Open Scope list_scope.
Open Scope Z_scope.
Ltac Zify.zify_post_hook ::= Z.div_mod_to_equations.

Section Ext.
Variable camel : string -> string.
Variable r : resolver.
Notation sv := (Struct r).

(** Without a position, the length of the data of the struct does not matter. *)
Section NoPtr.
Variable dcall : string -> amap value -> bytes -> outcome (value * bytes).
Variable n : nat.
Variable cenv : amap value.
Variable d1 d2 : bytes.
Lemma base_d : forall t c, noPtrT t = true -> decBase r dcall cenv (blen d1) t c = decBase r dcall cenv (blen d2) t c.
Proof. intros [] c H; try reflexivity; discriminate. Qed.
Lemma for_d : forall t, noPtrT t = true -> forall m k c, decFor r dcall cenv (blen d1) m t k c = decFor r dcall cenv (blen d2) m t k c.
Proof.
  intros t P. induction m as [|m IH]; intros k c; cbn [decFor]; auto. destruct (k <=? 0); auto. rewrite base_d by auto.
  destruct (decBase r dcall cenv (blen d2) t c) as [[v c1]| | |]; cbn [bind]; auto. now rewrite IH.
Qed.
Lemma while_d : forall t, noPtrT t = true -> forall m c, decWhile r dcall cenv (blen d1) m t c = decWhile r dcall cenv (blen d2) m t c.
Proof.
  intros t P. induction m as [|m IH]; intros c; cbn [decWhile]; auto. destruct (blen c <=? 0); auto. rewrite base_d by auto.
  destruct (decBase r dcall cenv (blen d2) t c) as [[v c1]| | |]; cbn [bind]; auto. now rewrite IH.
Qed.
Lemma within_d : forall {A} k c (f g : bytes -> outcome (A * bytes)), (forall c, f c = g c) -> decWithin k c f = decWithin k c g.
Proof. intros A k c f g H. unfold decWithin. now rewrite H. Qed.
Lemma leaving_d : forall {A} k c (f g : bytes -> outcome (A * bytes)), (forall c, f c = g c) -> decLeaving k c f = decLeaving k c g.
Proof. intros A k c f g H. unfold decLeaving. now rewrite (within_d _ c f g H). Qed.
Lemma type_d : forall fs t c, noPtrT t = true -> decType camel r dcall n cenv (blen d1) fs t c = decType camel r dcall n cenv (blen d2) fs t c.
Proof.
  intros fs t c P. destruct t as [sz cst| | | |nm|b i|b [[f|i]|]]; cbn [decType noPtrT] in *; try (now apply base_d).
  - destruct (integerOf r i); cbn [bind]; auto. now rewrite for_d.
  - destruct (refVal camel fs cenv f); cbn [bind]; auto. destruct (tipe camel r b); cbn [bind]; auto.
    match goal with |- context [if ?b then _ else _] => destruct b end; auto. now rewrite for_d.
  - destruct (integerOf r i); cbn [bind]; auto. apply leaving_d. intros c0. now rewrite while_d.
  - now rewrite while_d.
Qed.
Lemma members_d0 : forall ms, Forall (fun m => noPtrM m = true -> forall fs c, decMember camel r dcall n cenv (blen d1) m fs c = decMember camel r dcall n cenv (blen d2) m fs c) ms ->
  forallb noPtrM ms = true ->
  forall fs c, decMembers camel r dcall n cenv (blen d1) ms fs c = decMembers camel r dcall n cenv (blen d2) ms fs c.
Proof.
  induction ms as [|m ms IH]; intros F P fs c; cbn [decMembers forallb] in *; auto. apply andb_true_iff in P as [P1 P2].
  rewrite (Forall_inv F) by auto. destruct (decMember camel r dcall n cenv (blen d2) m fs c) as [[fs1 c1]| | |]; cbn [bind]; auto.
  apply IH; auto. exact (Forall_inv_tail F).
Qed.
Lemma member_d : forall m, noPtrM m = true -> forall fs c, decMember camel r dcall n cenv (blen d1) m fs c = decMember camel r dcall n cenv (blen d2) m fs c.
Proof.
  induction m as [nm t|u tag len cs IH| | |] using member_ind'; intros P fs c; try reflexivity.
  - cbn [decMember]. now rewrite type_d.
  - rewrite !decMember_union. cbn zeta. cbn [noPtrM] in P. rewrite forallb_forall in P. rewrite Forall_forall in IH.
    assert (B : forall c, (x <- refVal camel fs cenv tag ;; decPick camel r dcall n cenv d1 cs x cs fs c) =
                          (x <- refVal camel fs cenv tag ;; decPick camel r dcall n cenv d2 cs x cs fs c)).
    { intros c0. destruct (refVal camel fs cenv tag) as [x| | |]; cbn [bind]; auto. rewrite !decPick_choice.
      destruct (choice r x cs cs) as [ms|] eqn:E; auto. destruct (choice_in _ _ _ _ E) as [l I].
      apply members_d0; [exact (IH _ I)|exact (P _ I)]. }
    destruct len as [[f|i]|]; cbn [decConstr].
    + destruct (refVal camel fs cenv f); cbn [bind]; auto. now apply within_d.
    + destruct (integerOf r i); cbn [bind]; auto. now apply leaving_d.
    + apply B.
Qed.
End NoPtr.

Definition ext {A} (e : bytes) (o o' : outcome (A * bytes)) : Prop := forall a c', o = Ok (a, c') -> o' = Ok (a, c' ++ e).

Section Root.
Variable root : struct.
Hypothesis SD : selfDelimiting r root.
Hypothesis Hstr : forall nm s, sv nm = Some s -> Extern s = false -> checkStruct camel r s = true /\ forallb ptrM (members_of s) = true.
Notation okT := (okT r root).
Notation okM := (okM r root).


Lemma int_ext : forall sz cst c e, 0 <= sz -> ext e (decInt r sz cst c) (decInt r sz cst (c ++ e)).
Proof.
  intros sz cst c e S a c' H. unfold decInt in *. destruct (Z.ltb_spec (blen c) (sz / 8)) as [L|L]; [discriminate|].
  destruct (Z.ltb_spec (blen (c ++ e)) (sz / 8)) as [L'|L']; [rewrite blen_app in L'; pose proof (blen_nonneg e); lia|].
  assert (K : (Z.to_nat (sz / 8) <= Datatypes.length c)%nat) by (unfold blen in L; lia).
  rewrite firstn_app, skipn_app. replace (Z.to_nat (sz / 8) - Datatypes.length c)%nat with O by lia. cbn [firstn skipn]. rewrite app_nil_r.
  match type of H with context [if ?b then _ else _] => destruct b end; [|discriminate]. injection H as <- <-. reflexivity.
Qed.
Lemma nul_ext : forall c e, ext e (decNul c) (decNul (c ++ e)).
Proof.
  intros c e a c' H. unfold decNul in *. destruct (indexByte_found c 0) as [[E _]|(s & t & -> & NI & E)]; [lia| |]; rewrite E in H; [discriminate|].
  rewrite <- app_assoc. cbn [app]. rewrite indexByte_none by (auto; lia). rewrite Z.add_0_l in *.
  pose proof (blen_nonneg s). pose proof (blen_nonneg t). pose proof (blen_nonneg e).
  destruct (Z.ltb_spec (blen s) 0); [lia|]. destruct (Z.ltb_spec (s64 (blen s + 1)) 0); [discriminate|].
  destruct (Z.ltb_spec (blen (s ++ 0 :: t)) (s64 (blen s + 1))); [discriminate|].
  rewrite blen_app, blen_cons in *. rewrite blen_app in *.
  destruct (Z.ltb_spec (blen s + (1 + (blen t + blen e))) (s64 (blen s + 1))); [lia|]. cbn [orb] in *. injection H as <- <-.
  rewrite !firstn_app_all. f_equal. f_equal.
  replace (s ++ 0 :: t ++ e) with ((s ++ 0 :: t) ++ e) by (now rewrite <- app_assoc).
  rewrite (skipn_app (A := Z) _ (s ++ 0 :: t) e).
  replace (Z.to_nat (s64 (blen s + 1)) - Datatypes.length (s ++ 0%Z :: t))%nat with O; [reflexivity|].
  unfold blen in *. rewrite app_length. cbn [Datatypes.length]. lia.
Qed.

Section Two.
Variable e : bytes.
Variable dcall : string -> amap value -> bytes -> outcome (value * bytes).
Variable n : nat.
Variable cenv : amap value.
Variable dat : bytes.
Notation dat' := (dat ++ e).
Hypothesis Hcall : forall nm cenv c, (forall s, sv nm = Some s -> reaches r exposed root s /\ Extern s = false) -> ext e (dcall nm cenv c) (dcall nm cenv (c ++ e)).

Lemma base_ext : forall ctxs t c, checkBase r ctxs t = true -> okT t -> ext e (decBase r dcall cenv (blen dat) t c) (decBase r dcall cenv (blen dat') t (c ++ e)).
Proof.
  intros ctxs t c C [O O']. destruct t as [sz cst| | | |nm|b i|b l]; cbn [decBase].
  - apply int_ext. unfold checkBase, checkInt, goodSize in C. lia.
  - apply int_ext. lia.
  - intros a c' H. rewrite !blen_app. replace (blen dat + blen e - (blen c + blen e)) with (blen dat - blen c) by lia. now injection H as <- <-.
  - apply nul_ext.
  - apply Hcall. intros s E. split; [apply (O' nm); auto; now left|]. cbn in C. rewrite E in C. destruct (Extern s); [discriminate|auto].
  - intros a c' H. discriminate.
  - intros a c' H. discriminate.
Qed.
Lemma for_ext : forall ctxs t, checkBase r ctxs t = true -> okT t -> forall m k c, ext e (decFor r dcall cenv (blen dat) m t k c) (decFor r dcall cenv (blen dat') m t k (c ++ e)).
Proof.
  intros ctxs t CB O. induction m as [|m IH]; intros k c a c' H; cbn [decFor] in *; destruct (k <=? 0); try discriminate; try (now injection H as <- <-).
  apply bind_ok in H as ([v c1] & H1 & H). apply bind_ok in H as ([vs c2] & H2 & H). injection H as <- <-.
  rewrite (base_ext ctxs _ _ CB O _ _ H1). cbn [bind]. now rewrite (IH _ _ _ _ H2).
Qed.
Lemma within_ext : forall {A} k c (f g : bytes -> outcome (A * bytes)), (forall c, f c = g c) -> ext e (decWithin k c f) (decWithin k (c ++ e) g).
Proof.
  intros A k c f g F a c' H. unfold decWithin in *. destruct (Z.ltb_spec (blen c) k) as [L|L]; [discriminate|].
  destruct (Z.ltb_spec (blen (c ++ e)) k) as [L'|L']; [rewrite blen_app in L'; pose proof (blen_nonneg e); lia|].
  destruct (Z.ltb_spec k 0); [discriminate|].
  assert (K : (Z.to_nat k - Datatypes.length c)%nat = O) by (unfold blen in L; lia).
  rewrite firstn_app, skipn_app, K. cbn [firstn skipn]. rewrite app_nil_r, <- F.
  apply bind_ok in H as ([v c1] & H1 & H). rewrite H1. cbn [bind]. destruct (0 <? blen c1); [discriminate|]. now injection H as <- <-.
Qed.
Lemma type_ext : forall ctxs k fs t c, checkType r ctxs k t = true -> okT t -> ext e (decType camel r dcall n cenv (blen dat) fs t c) (decType camel r dcall n cenv (blen dat') fs t (c ++ e)).
Proof.
  intros ctxs k fs t c C OX. destruct t as [sz cst| | | |nm|b i|b [[f|i]|]]; try (cbn [decType]; eapply (base_ext ctxs); eauto; fail).
  - intros a c' H. cbn [decType] in *. apply bind_ok in H as (x & H1 & H). rewrite H1. cbn [bind].
    apply bind_ok in H as ([vs c1] & H2 & H). injection H as <- <-. erewrite (for_ext ctxs); [reflexivity|..|eauto].
    + cbn in C. apply andb_true_iff in C as [C1 C2]. eauto.
    + destruct OX as [O1 O2]. split; auto.
  - intros a c' H. cbn [decType] in *. apply bind_ok in H as (x & H1 & H). rewrite H1. cbn [bind].
    apply bind_ok in H as (g & H2 & H). rewrite H2. cbn [bind].
    match type of H with context [if ?b then _ else _] => destruct b end; [discriminate|].
    apply bind_ok in H as ([vs c1] & H3 & H). injection H as <- <-. erewrite (for_ext ctxs); [reflexivity|..|eauto].
    + cbn in C. apply andb_true_iff in C as [C1 C2]. eauto.
    + destruct OX as [O1 O2]. split; auto.
  - destruct OX as [O _]. discriminate.
  - destruct OX as [O _]. discriminate.
Qed.
Lemma members_ext0 : forall ctxs ms, Forall (fun m => forall k, checkMember r ctxs k m = true -> okM m -> ptrM m = true -> forall fs c,
    ext e (decMember camel r dcall n cenv (blen dat) m fs c) (decMember camel r dcall n cenv (blen dat') m fs (c ++ e))) ms ->
  forall k, checkMembers r ctxs k ms = true -> Forall okM ms -> forallb ptrM ms = true -> forall fs c,
    ext e (decMembers camel r dcall n cenv (blen dat) ms fs c) (decMembers camel r dcall n cenv (blen dat') ms fs (c ++ e)).
Proof.
  intros ctxs. induction ms as [|m ms IH]; intros F k C O P fs c a c' H; cbn [decMembers forallb checkMembers] in *.
  - now injection H as <- <-.
  - apply andb_true_iff in P as [P1 P2]. apply andb_true_iff in C as [C1 C2].
    apply bind_ok in H as ([fs1 c1] & H1 & H). rewrite (Forall_inv F k C1 (Forall_inv O) P1 _ _ _ _ H1). cbn [bind].
    eapply IH; eauto; eapply Forall_inv_tail; eauto.
Qed.
Lemma member_ext : forall ctxs m k, checkMember r ctxs k m = true -> okM m -> ptrM m = true -> forall fs c,
    ext e (decMember camel r dcall n cenv (blen dat) m fs c) (decMember camel r dcall n cenv (blen dat') m fs (c ++ e)).
Proof.
  intros ctxs. induction m as [nm t|u tag len cs IH| | |] using member_ind'; intros k C [O O'] P fs c.
  - intros a c' H. cbn [decMember] in *. apply bind_ok in H as ([v c1] & H1 & H). injection H as <- <-.
    erewrite type_ext; eauto; [reflexivity|]. split; auto.
  - rewrite !decMember_union. cbn zeta. rewrite Forall_forall in IH. destruct (check_union _ _ _ _ _ _ _ C) as (_ & _ & CC).
    destruct len as [[f|i]|]; cbn [decConstr].
    + intros a c' H. apply bind_ok in H as (x & H1 & H). rewrite H1. cbn [bind]. revert H. apply within_ext. intros c0.
      destruct (refVal camel fs cenv tag) as [y| | |]; cbn [bind]; auto. rewrite !decPick_choice.
      destruct (choice r y cs cs) as [ms|] eqn:E; auto. destruct (choice_in _ _ _ _ E) as [l I]. cbn [ptrM] in P. rewrite forallb_forall in P.
      apply members_d0; [apply Forall_forall; intros; now apply member_d|exact (P _ I)].
    + discriminate.
    + intros a c' H. apply bind_ok in H as (x & H1 & H). rewrite H1. cbn [bind]. rewrite decPick_choice in *.
      destruct (choice r x cs cs) as [ms|] eqn:E; [|now injection H as <- <-]. destruct (choice_in _ _ _ _ E) as [l I].
      cbn [ptrM openM exposed] in *. rewrite forallb_forall in P. destruct (CC _ I) as [_ CM]. cbn [ucase_members] in CM.
      eapply (members_ext0 ctxs ms (IH _ I) k CM); eauto; [|exact (P _ I)].
      apply Forall_forall. intros m Im. split.
      * destruct (openM m) eqn:EO; auto. rewrite <- O. symmetry. apply existsb_exists. exists (UCase l ms). split; auto. apply existsb_exists. eauto.
      * intros nm s J. apply O'. apply in_flat_map. exists (UCase l ms). split; auto. apply in_flat_map. eauto.
  - discriminate O.
  - intros a c' H. discriminate.
  - discriminate O.
Qed.
Lemma members_ext : forall ctxs ms k, checkMembers r ctxs k ms = true -> Forall okM ms -> forallb ptrM ms = true -> forall fs c,
    ext e (decMembers camel r dcall n cenv (blen dat) ms fs c) (decMembers camel r dcall n cenv (blen dat') ms fs (c ++ e)).
Proof. intros. eapply members_ext0; eauto. apply Forall_forall. intros. eapply member_ext; eauto. Qed.
End Two.

Lemma call_ext : forall e m nm cenv c, (forall s, sv nm = Some s -> reaches r exposed root s /\ Extern s = false) ->
  ext e (decCall camel r m nm cenv c) (decCall camel r m nm cenv (c ++ e)).
Proof.
  intros e. induction m as [|m IH]; intros nm cenv c R a c' H; cbn [decCall] in *; destruct (sv nm) as [s|] eqn:E; try discriminate.
  - apply bind_ok in H as (ds & _ & H). apply bind_ok in H as (args & _ & H). discriminate.
  - destruct (R _ eq_refl) as [RS X]. destruct (Hstr _ _ E X) as [CS PT].
    apply bind_ok in H as (ds & H1 & H). rewrite H1. cbn [bind]. apply bind_ok in H as (args & H2 & H). rewrite H2. cbn [bind].
    apply bind_ok in H as ([fs c1] & H3 & H). injection H as <- <-.
    erewrite members_ext; [reflexivity|..|eassumption]; auto.
    + apply (checked_parts _ _ _ CS).
    + apply Forall_forall. intros mm I. eapply okM_struct; eauto.
Qed.
Theorem struct_ext : forall e m fs cenv c, checkStruct camel r root = true -> forallb ptrM (members_of root) = true ->
  ext e (decStruct camel r m root fs cenv c) (decStruct camel r m root fs cenv (c ++ e)).
Proof.
  intros e [|m] fs cenv c CS PT a c' H; [discriminate|]. cbn [decStruct] in *. eapply members_ext; [|..|eassumption]; auto.
  - intros. now apply call_ext.
  - apply (checked_parts _ _ _ CS).
  - apply Forall_forall. intros mm I. eapply okM_struct; eauto. constructor.
Qed.
End Root.
End Ext.
