(** The decoder on a beginning of the data: declarations that do not look at the
    end of the data do the same on longer data, or complain that the data is too
    short. *)
From Coq Require Import ZArith String List Bool Lia ZifyBool ZifyNat.
From Verif Require Import Base Ast IntervalsModel InspectModel InspectSpec GoLang GenModel GenDecode GenCheck GenSimBody WireSpec WireProofs WireComplete WireFacts GenTerm GenExt CostDec.
Import ListNotations.
Open Scope string_scope.
Open Scope list_scope.
Open Scope Z_scope.
Ltac Zify.zify_post_hook ::= Z.div_mod_to_equations.

(** The errors that say that bytes are missing. *)
Definition short (e : string) : Prop := e = "data too short" \/ e = "could not parse nul-term string".

Definition pre {A} (e : bytes) (o o' : outcome (A * bytes)) : Prop :=
  match o with
  | Ok (a, c') => o' = Ok (a, c' ++ e)
  | Err x => o' = Err x \/ (short x /\ forall a c', o' = Ok (a, c') -> blen c' < blen e)
  | Panic m => o' = Panic m
  | OutOfFuel => o' = OutOfFuel
  end.
Lemma pre_bind : forall {A B} e (o o' : outcome (A * bytes)) (k k' : A * bytes -> outcome (B * bytes)), blen e < two63 ->
  pre e o o' -> (forall a c, o = Ok (a, c) -> pre e (k (a, c)) (k' (a, c ++ e))) ->
  (forall a c b c', blen c < two63 -> k' (a, c) = Ok (b, c') -> blen c' <= blen c) -> pre e (bind o k) (bind o' k').
Proof.
  intros A B e o o' k k' BE H K N. destruct o as [[a c]|x|m|]; cbn [pre bind] in *.
  - subst o'. cbn [bind]. auto.
  - destruct H as [->|[S L]]; auto. right. split; auto. intros b c' X. apply bind_ok in X as ([a c] & X1 & X2).
    specialize (L _ _ X1). apply N in X2; lia.
  - now subst o'.
  - now subst o'.
Qed.
Lemma pre_same : forall {A B} e (o : outcome A) (k k' : A -> outcome (B * bytes)),
  (forall a, o = Ok a -> pre e (k a) (k' a)) -> pre e (bind o k) (bind o k').
Proof. intros A B e o k k' K. destruct o; cbn [pre bind]; auto. Qed.

Section Prefix.
Variable camel : string -> string.
Variable r : resolver.
Notation sv := (Struct r).

Section Root.
Variable root : struct.
Hypothesis SD : selfDelimiting r root.
Hypothesis Hstr : forall nm s, sv nm = Some s -> Extern s = false -> checkStruct camel r s = true /\ forallb ptrM (members_of s) = true.
Notation okT := (okT r root).
Notation okM := (okM r root).

Lemma int_pre : forall sz cst c e, 0 <= sz -> pre e (decInt r sz cst c) (decInt r sz cst (c ++ e)).
Proof.
  intros sz cst c e S. unfold decInt. pose proof (blen_nonneg e). destruct (Z.ltb_spec (blen c) (sz / 8)) as [L|L].
  - right. split; [left; reflexivity|]. intros a c' H'. destruct (Z.ltb_spec (blen (c ++ e)) (sz / 8)) as [L'|L']; [discriminate|].
    match type of H' with context [if ?b then _ else _] => destruct b end; [|discriminate]. injection H' as _ <-.
    rewrite blen_app in L'. pose proof (blen_nonneg c). rewrite blen_skip; rewrite blen_app; lia.
  - destruct (Z.ltb_spec (blen (c ++ e)) (sz / 8)) as [L'|L']; [rewrite blen_app in L'; lia|].
    assert (K : (Z.to_nat (sz / 8) <= Datatypes.length c)%nat) by (unfold blen in L; lia).
    rewrite firstn_app, skipn_app. replace (Z.to_nat (sz / 8) - Datatypes.length c)%nat with O by lia. cbn [firstn skipn]. rewrite app_nil_r.
    match goal with |- context [if ?b then _ else _] => destruct b end; [reflexivity|left; reflexivity].
Qed.
Lemma nul_pre : forall c e, blen (c ++ e) < two63 -> pre e (decNul c) (decNul (c ++ e)).
Proof.
  intros c e B. rewrite blen_app in B. pose proof (blen_nonneg e). pose proof (blen_nonneg c).
  pose proof (nul_ext camel r root Hstr c e) as X. unfold ext in X. destruct (decNul c) as [[a c']|x|m|] eqn:E; cbn [pre]; auto.
  - unfold decNul in E. destruct (indexByte_found c 0) as [[I NI]|(s & t & -> & NI & I)]; [lia| |].
    + rewrite I in E. injection E as <-. right. split; [right; reflexivity|]. intros a c' D. unfold decNul in D.
      destruct (indexByte_found (c ++ e) 0) as [[I' _]|(s & t & ES & NI' & I')]; [lia| |]; rewrite I' in D; [discriminate|].
      rewrite Z.add_0_l in D. pose proof (blen_nonneg s). pose proof (blen_nonneg t).
      destruct (Z.ltb_spec (blen s) 0); [lia|]. assert (BL : blen s + 1 + blen t = blen c + blen e) by (rewrite <- blen_app, ES, blen_app, blen_cons; lia).
      rewrite s64_small in D by (unfold two63 in *; lia). destruct (_ || _); [discriminate|]. injection D as _ <-.
      rewrite blen_skip; rewrite blen_app; [|lia].
      assert (blen c <= blen s); [|lia]. destruct (Z.le_gt_cases (blen c) (blen s)) as [|G]; auto. exfalso. apply NI.
      assert (IC : In 0 (firstn (length c) (s ++ 0 :: t))).
      { rewrite firstn_app. apply in_or_app. right. unfold blen in G. destruct (length c - length s)%nat eqn:Q; [lia|]. now left. }
      rewrite <- ES, firstn_app, firstn_all, Nat.sub_diag, firstn_O, app_nil_r in IC. exact IC.
    + rewrite I in E. rewrite Z.add_0_l in E. pose proof (blen_nonneg s). destruct (Z.ltb_spec (blen s) 0); [lia|]. destruct (_ || _); discriminate.
  - unfold decNul in *. destruct (indexByte_found c 0) as [[I _]|(s & t & -> & NI & I)]; [lia| |]; rewrite I in E; [discriminate|].
    rewrite Z.add_0_l in *. pose proof (blen_nonneg s). pose proof (blen_nonneg t). destruct (Z.ltb_spec (blen s) 0); [lia|].
    rewrite blen_app, blen_cons in *. rewrite s64_small in E by (unfold two63 in *; lia).
    destruct (Z.ltb_spec (blen s + 1) 0); [lia|].
    destruct (Z.ltb_spec (blen s + (1 + blen t)) (blen s + 1)); [lia|discriminate].
  - unfold decNul in E. destruct (indexByte c 0 0 <? 0); [discriminate|]. destruct (_ || _); discriminate.
Qed.

Section Two.
Variable e : bytes.
Variable dcall : string -> amap value -> bytes -> outcome (value * bytes).
Variable n : nat.
Variable cenv : amap value.
Variable dat : bytes.
Notation dat' := (dat ++ e).
Hypothesis Hleft : forall nm ce c v c', blen c < two63 -> dcall nm ce c = Ok (v, c') -> blen c' <= blen c.
Hypothesis BE : blen e < two63.
Hypothesis Hcall : forall nm cenv c, blen (c ++ e) < two63 -> (forall s, sv nm = Some s -> reaches r exposed root s /\ Extern s = false) -> pre e (dcall nm cenv c) (dcall nm cenv (c ++ e)).

Notation small c := (blen (c ++ e) < two63).
Lemma small_le : forall c c1, blen c1 <= blen c -> small c -> small c1.
Proof. intros c c1 L B. rewrite blen_app in *. lia. Qed.
Lemma small_c : forall c, small c -> blen c < two63.
Proof. intros c B. rewrite blen_app in B. pose proof (blen_nonneg e). lia. Qed.

Lemma base_pre : forall ctxs t c, small c -> checkBase r ctxs t = true -> okT t -> pre e (decBase r dcall cenv (blen dat) t c) (decBase r dcall cenv (blen dat') t (c ++ e)).
Proof.
  intros ctxs t c B C [O O']. destruct t as [sz cst| | | |nm|b i|b l]; cbn [decBase].
  - apply int_pre. unfold checkBase, checkInt, goodSize in C. lia.
  - apply int_pre. lia.
  - rewrite !blen_app. replace (blen dat + blen e - (blen c + blen e)) with (blen dat - blen c) by lia. reflexivity.
  - apply nul_pre. auto.
  - apply Hcall; auto. intros s E. split; [apply (O' nm); auto; now left|]. cbn in C. rewrite E in C. destruct (Extern s); [discriminate|auto].
  - reflexivity.
  - reflexivity.
Qed.
Lemma for_pre : forall ctxs t, checkBase r ctxs t = true -> okT t -> forall m k c, small c -> pre e (decFor r dcall cenv (blen dat) m t k c) (decFor r dcall cenv (blen dat') m t k (c ++ e)).
Proof.
  intros ctxs t CB O. induction m as [|m IH]; intros k c B; cbn [decFor] in *; destruct (k <=? 0); try reflexivity.
  apply pre_bind; auto; [eapply base_pre; eauto| |].
  - intros v c1 H1. apply pre_bind; auto.
    + apply IH. apply (small_le c); auto. eapply decBase_left; eauto using small_c.
    + intros vs c2 _. reflexivity.
    + intros a c0 b c' _ X. injection X as _ <-. lia.
  - intros a c0 b c' B0 X. apply bind_ok in X as ([vs c2] & X1 & X2). injection X2 as _ <-. eapply decFor_left; eauto.
Qed.
Lemma within_pre : forall {A} k c (f g : bytes -> outcome (A * bytes)), (forall c, f c = g c) -> pre e (decWithin k c f) (decWithin k (c ++ e) g).
Proof.
  intros A k c f g F. pose proof (blen_nonneg e). unfold decWithin at 1. destruct (Z.ltb_spec (blen c) k) as [L|L].
  { right. split; [left; reflexivity|]. intros a c' X. eapply decWithin_ok in X as (K & -> & _); try eassumption. rewrite blen_skip; auto. rewrite blen_app in *. lia. }
  unfold decWithin. destruct (Z.ltb_spec (blen (c ++ e)) k) as [L'|L']; [rewrite blen_app in L'; lia|].
  destruct (Z.ltb_spec k 0); [reflexivity|].
  assert (K : (Z.to_nat k - Datatypes.length c)%nat = O) by (unfold blen in L; lia).
  rewrite firstn_app, skipn_app, K. cbn [firstn skipn]. rewrite app_nil_r, <- F.
  apply pre_same. intros [v c1] _. destruct (0 <? blen c1); [left|]; reflexivity.
Qed.
Lemma type_pre : forall ctxs k fs t c, small c -> checkType r ctxs k t = true -> okT t -> pre e (decType camel r dcall n cenv (blen dat) fs t c) (decType camel r dcall n cenv (blen dat') fs t (c ++ e)).
Proof.
  intros ctxs k fs t c B C OX. destruct t as [sz cst| | | |nm|b i|b [[f|i]|]]; try (cbn [decType]; eapply (base_pre ctxs); eauto; fail).
  - cbn [decType]. apply pre_same. intros x _. cbn in C. apply andb_true_iff in C as [C1 C2]. destruct OX as [O1 O2].
    apply pre_bind; auto; [eapply (for_pre ctxs); eauto; split; auto|reflexivity|]. intros a c0 b0 c' _ X. injection X as _ <-. lia.
  - cbn [decType]. apply pre_same. intros x _. apply pre_same. intros g _. cbn in C. apply andb_true_iff in C as [C1 C2]. destruct OX as [O1 O2].
    match goal with |- context [if ?b then _ else _] => destruct b end; [reflexivity|].
    apply pre_bind; auto; [eapply (for_pre ctxs); eauto; split; auto|reflexivity|]. intros a c0 b0 c' _ X. injection X as _ <-. lia.
  - destruct OX as [O _]. discriminate.
  - destruct OX as [O _]. discriminate.
Qed.
Lemma members_pre0 : forall ctxs ms, Forall (fun m => forall k, checkMember r ctxs k m = true -> okM m -> ptrM m = true -> forall fs c, small c ->
    pre e (decMember camel r dcall n cenv (blen dat) m fs c) (decMember camel r dcall n cenv (blen dat') m fs (c ++ e))) ms ->
  forall k, checkMembers r ctxs k ms = true -> Forall okM ms -> forallb ptrM ms = true -> forall fs c, small c ->
    pre e (decMembers camel r dcall n cenv (blen dat) ms fs c) (decMembers camel r dcall n cenv (blen dat') ms fs (c ++ e)).
Proof.
  intros ctxs. induction ms as [|m ms IH]; intros F k C O P fs c B; cbn [decMembers forallb checkMembers] in *; [reflexivity|].
  apply andb_true_iff in P as [P1 P2]. apply andb_true_iff in C as [C1 C2].
  apply pre_bind; auto; [apply (Forall_inv F k C1 (Forall_inv O) P1); auto| |].
  - intros fs1 c1 H1. eapply IH; eauto; try (eapply Forall_inv_tail; eauto).
    apply (small_le c); auto. eapply decMember_left; eauto using small_c.
  - intros a c0 b c' B0 X. eapply decMembers_left; eauto.
Qed.
Lemma member_pre : forall ctxs m k, checkMember r ctxs k m = true -> okM m -> ptrM m = true -> forall fs c, small c ->
    pre e (decMember camel r dcall n cenv (blen dat) m fs c) (decMember camel r dcall n cenv (blen dat') m fs (c ++ e)).
Proof.
  intros ctxs. induction m as [nm t|u tag len cs IH| | |] using member_ind'; intros k C [O O'] P fs c B.
  - cbn [decMember] in *. apply pre_bind; auto; [eapply type_pre; eauto; split; auto|reflexivity|]. intros a c0 b c' _ X. injection X as _ <-. lia.
  - rewrite !decMember_union. cbn zeta. rewrite Forall_forall in IH. destruct (check_union _ _ _ _ _ _ _ C) as (_ & _ & CC).
    destruct len as [[f|i]|]; cbn [decConstr].
    + apply pre_same. intros x _. apply within_pre. intros c0.
      destruct (refVal camel fs cenv tag) as [y| | |]; cbn [bind]; auto. rewrite !decPick_choice.
      destruct (choice r y cs cs) as [ms|] eqn:E; auto. destruct (choice_in _ _ _ _ E) as [l I]. cbn [ptrM] in P. rewrite forallb_forall in P.
      apply members_d0; [apply Forall_forall; intros; now apply member_d|exact (P _ I)].
    + discriminate.
    + apply pre_same. intros x _. rewrite !decPick_choice.
      destruct (choice r x cs cs) as [ms|] eqn:E; [|reflexivity]. destruct (choice_in _ _ _ _ E) as [l I].
      cbn [ptrM openM exposed] in *. rewrite forallb_forall in P. destruct (CC _ I) as [_ CM]. cbn [ucase_members] in CM.
      eapply (members_pre0 ctxs ms (IH _ I) k CM); eauto; [|exact (P _ I)].
      apply Forall_forall. intros m Im. split.
      * destruct (openM m) eqn:EO; auto. rewrite <- O. symmetry. apply existsb_exists. exists (UCase l ms). split; auto. apply existsb_exists. eauto.
      * intros nm s J. apply O'. apply in_flat_map. exists (UCase l ms). split; auto. apply in_flat_map. eauto.
  - discriminate O.
  - left. reflexivity.
  - discriminate O.
Qed.
Lemma members_pre : forall ctxs ms k, checkMembers r ctxs k ms = true -> Forall okM ms -> forallb ptrM ms = true -> forall fs c, small c ->
    pre e (decMembers camel r dcall n cenv (blen dat) ms fs c) (decMembers camel r dcall n cenv (blen dat') ms fs (c ++ e)).
Proof. intros. eapply members_pre0; eauto. apply Forall_forall. intros. eapply member_pre; eauto. Qed.
End Two.

Lemma call_pre : forall e m nm cenv c, blen (c ++ e) < two63 -> (forall s, sv nm = Some s -> reaches r exposed root s /\ Extern s = false) ->
  pre e (decCall camel r m nm cenv c) (decCall camel r m nm cenv (c ++ e)).
Proof.
  intros e. induction m as [|m IH]; intros nm cenv c B R; cbn [decCall] in *; destruct (sv nm) as [s|] eqn:E; try reflexivity.
  - apply pre_same. intros ds _. apply pre_same. intros args _. reflexivity.
  - destruct (R _ eq_refl) as [RS X]. destruct (Hstr _ _ E X) as [CS PT]. assert (BE : blen e < two63) by (rewrite blen_app in B; pose proof (blen_nonneg c); lia).
    apply pre_same. intros ds _. apply pre_same. intros args _. apply pre_bind; [auto| |reflexivity|].
    + eapply members_pre; auto.
      * intros. eapply decCall_left; eauto.
      * apply (checked_parts _ _ _ CS).
      * apply Forall_forall. intros mm I. eapply okM_struct; eauto.
    + intros a c0 b c' _ Y. injection Y as _ <-. lia.
Qed.
Theorem struct_pre : forall e m fs cenv c, blen (c ++ e) < two63 -> checkStruct camel r root = true -> forallb ptrM (members_of root) = true ->
  pre e (decStruct camel r m root fs cenv c) (decStruct camel r m root fs cenv (c ++ e)).
Proof.
  intros e [|m] fs cenv c B CS PT; [reflexivity|]. cbn [decStruct] in *. assert (BE : blen e < two63) by (rewrite blen_app in B; pose proof (blen_nonneg c); lia).
  eapply members_pre; auto.
  - intros. eapply decCall_left; eauto.
  - intros. now apply call_pre.
  - apply (checked_parts _ _ _ CS).
  - apply Forall_forall. intros mm I. eapply okM_struct; eauto. constructor.
Qed.
End Root.
End Prefix.
