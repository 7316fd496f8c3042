(** What the decoder does does not depend on the receiver's previous content,
    apart from fields it does not set. *)
From Coq Require Import ZArith String List Bool Lia ZifyBool ZifyNat.
From Verif Require Import Base Ast IntervalsModel InspectModel InspectSpec GoLang GenModel GenDecode GenCheck
  GenSim GenSimBody GenSimProg WireSpec WireProofs WireComplete GenTerm WireFacts.
Import ListNotations.
Open Scope string_scope.
Open Scope list_scope.
Open Scope Z_scope.

Section Recv.
Variable camel : string -> string.
Variable r : resolver.
Variable dcall : string -> amap value -> bytes -> outcome (value * bytes).
Variable n : nat.
Variable cenv : amap value.
Variable dat : bytes.
Notation d := (blen dat).

(** Each field either gets the same value or is left alone. *)
Definition sameOrKept (fa fb fa' fb' : amap value) : Prop :=
  forall g, alookup g fa' = alookup g fb' \/ (alookup g fa' = alookup g fa /\ alookup g fb' = alookup g fb).
Lemma sok_refl : forall fa fb, sameOrKept fa fb fa fb.
Proof. intros fa fb g. auto. Qed.
Lemma sok_trans : forall fa fb fa1 fb1 fa2 fb2, sameOrKept fa fb fa1 fb1 -> sameOrKept fa1 fb1 fa2 fb2 -> sameOrKept fa fb fa2 fb2.
Proof.
  intros fa fb fa1 fb1 fa2 fb2 H1 H2 g. destruct (H2 g) as [E|[E1 E2]]; auto. destruct (H1 g) as [E|[F1 F2]].
  - left. congruence.
  - right. split; congruence.
Qed.

Definition agree2 (ns : list string) (fa fb : amap value) : Prop := agreeOn camel ns fa fb /\ map fst fa = map fst fb.
Definition both (ns : list string) (fa fb : amap value) (oa ob : outcome (amap value * bytes)) : Prop :=
  match oa, ob with
  | Ok (fa', ca), Ok (fb', cb) => ca = cb /\ agree2 ns fa' fb' /\ sameOrKept fa fb fa' fb'
  | Err e, Err e' => e = e'
  | Panic m, Panic m' => m = m'
  | OutOfFuel, OutOfFuel => True
  | _, _ => False
  end.

Lemma ref_agree : forall ctxs k fa fb f sz, agree2 (map fst k) fa fb -> refWidth r ctxs k f = Some sz ->
  refVal camel fa cenv f = refVal camel fb cenv f.
Proof.
  intros ctxs k fa fb f sz [A _] W. unfold refVal. destruct (String.eqb_spec (rscope f) "") as [S|S]; auto.
  rewrite (A (rname f)); auto. eapply refWidth_local; eauto.
Qed.
Lemma type_agree : forall ctxs k fa fb t c, agree2 (map fst k) fa fb -> checkType r ctxs k t = true ->
  decType camel r dcall n cenv d fa t c = decType camel r dcall n cenv d fb t c.
Proof.
  intros ctxs k fa fb t c A C. destruct t as [| | | | | |b [[f|i]|]]; auto. cbn [decType]. cbn in C. apply andb_true_iff in C as [_ C].
  destruct (refWidth r ctxs k f) eqn:W; [|discriminate]. now rewrite (ref_agree _ _ _ _ _ _ A W).
Qed.
Lemma assign_dom : forall f v (fs : amap value), map fst (assign f v fs) = map fst fs.
Proof. intros. rewrite <- setField_assign. apply setField_dom. Qed.
Lemma assign_lookup : forall f v (fs : amap value), In f (map fst fs) -> alookup f (assign f v fs) = Some v.
Proof. intros. rewrite <- setField_assign. now apply set_lookup. Qed.
Lemma assign_absent : forall f v (fs : amap value), ~ In f (map fst fs) -> assign f v fs = fs.
Proof.
  induction fs as [|[g w] fs IH]; intros N; cbn in *; auto. destruct (String.eqb_spec f g) as [->|]; [tauto|]. rewrite IH; tauto.
Qed.
Lemma assign_agree : forall ns f v fa fb, agree2 ns fa fb -> agree2 ns (assign f v fa) (assign f v fb) /\
  sameOrKept fa fb (assign f v fa) (assign f v fb) /\ alookup f (assign f v fa) = alookup f (assign f v fb).
Proof.
  intros ns f v fa fb [A D].
  assert (L : alookup f (assign f v fa) = alookup f (assign f v fb)).
  { destruct (in_dec string_dec f (map fst fa)) as [I|I].
    - rewrite !assign_lookup; auto. now rewrite <- D.
    - rewrite !assign_absent; auto; [|now rewrite <- D].
      assert (alookup f fa = None) by (destruct (alookup f fa) eqn:E; auto; exfalso; apply I, dom_lookup; congruence).
      assert (alookup f fb = None) by (destruct (alookup f fb) eqn:E; auto; exfalso; apply I; rewrite D; apply dom_lookup; congruence).
      congruence. }
  split; [split|split]; auto.
  - intros x Hx. destruct (String.eqb_spec (camel x) f) as [E|N]; [now rewrite E|]. rewrite !alookup_assign_other by auto. auto.
  - now rewrite !assign_dom.
  - intros g. destruct (String.eqb_spec g f) as [->|N]; auto. right. split; apply alookup_assign_other; auto.
Qed.

Lemma both_bind : forall ns ns' fa fb oa ob ka kb, both ns fa fb oa ob ->
  (forall fa' fb' c, agree2 ns fa' fb' -> sameOrKept fa fb fa' fb' -> both ns' fa' fb' (ka (fa', c)) (kb (fb', c))) ->
  both ns' fa fb (bind oa ka) (bind ob kb).
Proof.
  intros ns ns' fa fb oa ob ka kb B K. destruct oa as [[fa' ca]| | |], ob as [[fb' cb]| | |]; cbn in B; try contradiction; cbn [bind]; auto.
  destruct B as (-> & A & S). specialize (K fa' fb' cb A S). unfold both in *.
  destruct (ka (fa', cb)) as [[fa2 ca2]| | |], (kb (fb', cb)) as [[fb2 cb2]| | |]; auto. destruct K as (-> & A2 & S2).
  split; auto. split; auto. eapply sok_trans; eauto.
Qed.
Lemma both_within : forall ns fa fb k c ba bb, (forall c, both ns fa fb (ba c) (bb c)) -> both ns fa fb (decWithin k c ba) (decWithin k c bb).
Proof.
  intros ns fa fb k c ba bb H. unfold decWithin. destruct (blen c <? k); [reflexivity|]. destruct (k <? 0); [reflexivity|].
  specialize (H (firstn (Z.to_nat k) c)). unfold both in *.
  destruct (ba (firstn (Z.to_nat k) c)) as [[fa' ca]| | |], (bb (firstn (Z.to_nat k) c)) as [[fb' cb]| | |]; cbn; try contradiction; auto.
  destruct H as (-> & A & S). destruct (0 <? blen cb); auto.
Qed.
Lemma both_leaving : forall ns fa fb k c ba bb, (forall c, both ns fa fb (ba c) (bb c)) -> both ns fa fb (decLeaving k c ba) (decLeaving k c bb).
Proof.
  intros ns fa fb k c ba bb H. unfold decLeaving. destruct (k <? 0); [reflexivity|]. destruct (blen c <? k); [reflexivity|]. now apply both_within.
Qed.
Lemma both_weak : forall ns ns' fa fb oa ob, incl ns' ns -> both ns fa fb oa ob -> both ns' fa fb oa ob.
Proof.
  intros ns ns' fa fb oa ob I B. unfold both in *. destruct oa as [[fa' ca]| | |], ob as [[fb' cb]| | |]; auto.
  destruct B as (E & [A D] & S). split; auto. split; auto. split; auto. intros x Hx. auto.
Qed.

Lemma same_ref : forall ns fa fb (o : outcome Z) ka kb, (forall x, both ns fa fb (ka x) (kb x)) -> both ns fa fb (bind o ka) (bind o kb).
Proof. intros ns fa fb o ka kb H. destruct o; cbn; auto. Qed.

Definition stepOK (m : member) : Prop := forall ctxs k fa fb c, checkMember r ctxs k m = true ->
  agree2 (map fst k) fa fb -> both (map fst (addKnown k m)) fa fb (decMember camel r dcall n cenv d m fa c) (decMember camel r dcall n cenv d m fb c).
Lemma members_both0 : forall ms, Forall stepOK ms -> forall ctxs k fa fb c, checkMembers r ctxs k ms = true ->
  agree2 (map fst k) fa fb -> both (map fst (knownAfter k ms)) fa fb (decMembers camel r dcall n cenv d ms fa c) (decMembers camel r dcall n cenv d ms fb c).
Proof.
  induction ms as [|m ms IH]; intros F ctxs k fa fb c C A; cbn [decMembers].
  - cbn. split; auto. split; auto. apply sok_refl.
  - cbn [checkMembers] in C. apply andb_true_iff in C as [C1 C2]. eapply both_bind; [eapply (Forall_inv F); eauto|].
    intros fa' fb' c1 A' S. cbn [knownAfter fold_left]. apply (IH (Forall_inv_tail F) ctxs); auto.
Qed.
Lemma knownAfter_incl : forall ms k, incl (map fst k) (map fst (knownAfter k ms)).
Proof.
  induction ms as [|m ms IH]; intros k; cbn [knownAfter fold_left]; [intros x; auto|].
  intros x Hx. apply IH. destruct m as [nm []| | | |]; cbn; auto.
Qed.
Theorem member_both : forall m, stepOK m.
Proof.
  induction m as [nm t|u tag len cs IH| | |] using member_ind'; intros ctxs k fa fb c C A.
  - cbn [decMember checkMember] in *. rewrite (type_agree _ _ _ _ _ c A C).
    destruct (decType camel r dcall n cenv d fb t c) as [[v c1]| | |]; cbn; auto.
    destruct (assign_agree (map fst k) (camel nm) v fa fb A) as ([A1 A2] & S & L).
    split; auto. split; auto. split; auto. destruct t as [sz cst| | | | | |]; auto.
    intros x [<-|Hx]; auto.
  - rewrite !decMember_union. cbn zeta. cbn [addKnown]. destruct (check_union _ _ _ _ _ _ _ C) as (W1 & W2 & CC).
    assert (B : forall c, both (map fst k) fa fb
      (x <- refVal camel fa cenv tag ;; decPick camel r dcall n cenv dat cs x cs fa c)
      (x <- refVal camel fb cenv tag ;; decPick camel r dcall n cenv dat cs x cs fb c)).
    { intros c0. destruct W1 as [sz W1]. rewrite (ref_agree _ _ _ _ _ _ A W1). apply same_ref. intros x. rewrite !decPick_choice.
      destruct (choice r x cs cs) as [ms|] eqn:E; [|cbn; split; auto; split; auto; apply sok_refl].
      destruct (choice_in r _ _ _ E) as [l I]. rewrite Forall_forall in IH. specialize (IH _ I). cbn in IH.
      destruct (CC _ I) as [_ CM]. eapply both_weak; [apply knownAfter_incl|]. eapply members_both0; eauto. }
    destruct len as [[f|i]|]; cbn [decConstr]; auto.
    + destruct W2 as [sz W]. rewrite (ref_agree _ _ _ _ _ _ A W). apply same_ref. intros x. now apply both_within.
    + apply same_ref. intros x. now apply both_leaving.
  - cbn. destruct (0 <? blen c); cbn; auto. split; auto. split; auto. apply sok_refl.
  - reflexivity.
  - cbn. split; auto. split; auto. apply sok_refl.
Qed.
Theorem members_both : forall ms ctxs k fa fb c, checkMembers r ctxs k ms = true -> agree2 (map fst k) fa fb ->
  both (map fst (knownAfter k ms)) fa fb (decMembers camel r dcall n cenv d ms fa c) (decMembers camel r dcall n cenv d ms fb c).
Proof. intros. eapply members_both0; eauto. apply Forall_forall. intros. apply member_both. Qed.
End Recv.

Theorem struct_both : forall camel r n s fa fb cenv c, checkStruct camel r s = true -> map fst fa = map fst fb ->
  both camel (map fst (knownAfter [] (members_of s))) fa fb (decStruct camel r n s fa cenv c) (decStruct camel r n s fb cenv c).
Proof.
  intros camel r [|n] s fa fb cenv c CS D; [exact I|]. cbn [decStruct]. eapply members_both.
  - eapply checked_members; eauto.
  - split; auto. intros x [].
Qed.
