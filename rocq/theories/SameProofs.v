(** The decoder on declarations that are the same in the sense of SameSpec.v. *)
From Coq Require Import ZArith String List Bool Lia ZifyBool ZifyNat.
From Verif Require Import Base Ast IntervalsModel InspectModel InspectSpec GoLang GenModel GenDecode GenCheck GenSimBody WireSpec WireProofs WireComplete WireFacts GenTerm SameSpec.
Import ListNotations.
Open Scope string_scope.
Open Scope list_scope.
Open Scope Z_scope.

Section Same.
Variable camel : string -> string.
Variable r r' : resolver.
Notation cv := (Constant r).
Notation cv' := (Constant r').
Notation SameT := (sameT cv cv').
Notation SameM := (sameM cv cv').
Notation SameC := (sameC cv cv').

Lemma same_integer : forall i i', sameInt cv cv' i i' -> exists v, integerOf r i = Ok v /\ integerOf r' i' = Ok v.
Proof.
  intros i i' (v & E & E'). exists v. split.
  - unfold integerOf, Integer. destruct i; cbn [int_value] in E; [rewrite E|injection E as ->]; reflexivity.
  - unfold integerOf, Integer. destruct i'; cbn [int_value] in E'; [rewrite E'|injection E' as ->]; reflexivity.
Qed.
Lemma same_inList : forall l l' x, sameList cv cv' l l' -> inList r x l = inList r' x l'.
Proof.
  intros l l' x H. specialize (H x). destruct (inList r x l) eqn:E, (inList r' x l') eqn:E'; auto.
  - apply inList_spec in E. apply H in E. apply inList_spec in E. congruence.
  - apply inList_spec in E'. apply H in E'. apply inList_spec in E'. congruence.
Qed.
Lemma same_tipe : forall t t', SameT t t' -> tipe camel r t = tipe camel r' t'.
Proof.
  induction 1 as [| | | | |b b' i i' S IH I|b b' c c' S IH I]; cbn [tipe]; auto.
  - destruct (same_integer _ _ I) as (v & E & E'). rewrite E, E'. cbn [bind]. now rewrite IH.
  - now rewrite IH.
Qed.
Lemma same_int : forall sz o o' c, sameLists cv cv' o o' -> decInt r sz o c = decInt r' sz o' c.
Proof.
  intros sz o o' c H. unfold decInt. destruct o as [l|], o' as [l'|]; cbn [sameLists] in H; try contradiction; auto.
  rewrite (same_inList l l' _ H). reflexivity.
Qed.

Definition known (nm : string) : Prop := exists s, Struct r nm = Some s /\ Extern s = false.

Section Body.
Variable dcall dcall' : string -> amap value -> bytes -> outcome (value * bytes).
Hypothesis Hcall : forall nm cenv c, known nm -> dcall nm cenv c = dcall' nm cenv c.
Variable n : nat.
Variable cenv : amap value.
Variable dat : bytes.
Notation d := (blen dat).

Lemma same_base : forall ctxs t t' c, SameT t t' -> checkBase r ctxs t = true -> decBase r dcall cenv d t c = decBase r' dcall' cenv d t' c.
Proof.
  intros ctxs t t' c S C. destruct S; cbn [decBase]; auto.
  - now apply same_int.
  - apply Hcall. cbn in C. destruct (Struct r n0) as [s|] eqn:E; [|discriminate]. exists s. split; auto. destruct (Extern s); [discriminate|auto].
Qed.
Lemma same_for : forall ctxs t t', SameT t t' -> checkBase r ctxs t = true -> forall m k c, decFor r dcall cenv d m t k c = decFor r' dcall' cenv d m t' k c.
Proof.
  intros ctxs t t' S C. induction m as [|m IH]; intros k c; cbn [decFor]; auto. destruct (k <=? 0); auto. rewrite (same_base ctxs t t' c S C).
  destruct (decBase r' dcall' cenv d t' c) as [[v c1]| | |]; cbn [bind]; auto. now rewrite IH.
Qed.
Lemma same_while : forall ctxs t t', SameT t t' -> checkBase r ctxs t = true -> forall m c, decWhile r dcall cenv d m t c = decWhile r' dcall' cenv d m t' c.
Proof.
  intros ctxs t t' S C. induction m as [|m IH]; intros c; cbn [decWhile]; auto. destruct (blen c <=? 0); auto. rewrite (same_base ctxs t t' c S C).
  destruct (decBase r' dcall' cenv d t' c) as [[v c1]| | |]; cbn [bind]; auto. now rewrite IH.
Qed.
Lemma same_within : forall {A} k c (f g : bytes -> outcome (A * bytes)), (forall c, f c = g c) -> decWithin k c f = decWithin k c g.
Proof. intros A k c f g H. unfold decWithin. now rewrite H. Qed.
Lemma same_leaving : forall {A} k c (f g : bytes -> outcome (A * bytes)), (forall c, f c = g c) -> decLeaving k c f = decLeaving k c g.
Proof. intros A k c f g H. unfold decLeaving. now rewrite (same_within _ c f g H). Qed.
Lemma same_type : forall ctxs k fs t t' c, SameT t t' -> checkType r ctxs k t = true ->
  decType camel r dcall n cenv d fs t c = decType camel r' dcall' n cenv d fs t' c.
Proof.
  intros ctxs k fs t t' c S C. destruct S as [sz o o' L| | | |nm|b b' i i' S I|b b' o o' S L]; cbn [decType];
    try (eapply (same_base ctxs); [constructor; auto|exact C]; fail).
  - cbn [checkType] in C. apply andb_true_iff in C as [C _]. destruct (same_integer _ _ I) as (v & E & E'). rewrite E, E'. cbn [bind].
    now rewrite (same_for ctxs b b' S C).
  - destruct o as [[f|i]|], o' as [[f'|i']|]; cbn [sameLengths sameLength checkType] in *; try contradiction.
    + subst f'. apply andb_true_iff in C as [C _]. destruct (refVal camel fs cenv f); cbn [bind]; auto. rewrite (same_tipe b b' S).
      destruct (tipe camel r' b'); cbn [bind]; auto. match goal with |- context [if ?b then _ else _] => destruct b end; auto.
      now rewrite (same_for ctxs b b' S C).
    + apply andb_true_iff in C as [C _]. destruct (same_integer _ _ L) as (v & E & E'). rewrite E, E'. cbn [bind].
      apply same_leaving. intros c0. now rewrite (same_while ctxs b b' S C).
    + now rewrite (same_while ctxs b b' S C).
Qed.

Lemma same_pick : forall x cs cs', Forall2 SameC cs cs' ->
  match pickCase r x cs, pickCase r' x cs' with Some ms, Some ms' => Forall2 SameM ms ms' | None, None => True | _, _ => False end.
Proof.
  intros x cs cs' F. induction F as [|? ? cs cs' [l l' ms ms' L M] F IH]; cbn [pickCase]; auto.
  destruct l as [l|], l' as [l'|]; cbn [sameLists] in L; try contradiction; auto. rewrite (same_inList l l' x L). destruct (inList r' x l'); auto.
Qed.
Lemma same_default : forall cs cs', Forall2 SameC cs cs' ->
  match defaultCase cs, defaultCase cs' with Some ms, Some ms' => Forall2 SameM ms ms' | None, None => True | _, _ => False end.
Proof.
  intros cs cs' F. induction F as [|? ? cs cs' [l l' ms ms' L M] F IH]; cbn [defaultCase]; auto.
  destruct l as [l|], l' as [l'|]; cbn [sameLists] in L; try contradiction; auto.
Qed.
Lemma same_choice : forall x cs cs', Forall2 SameC cs cs' ->
  match choice r x cs cs, choice r' x cs' cs' with Some ms, Some ms' => Forall2 SameM ms ms' | None, None => True | _, _ => False end.
Proof.
  intros x cs cs' F. unfold choice. pose proof (same_pick x _ _ F) as P. pose proof (same_default _ _ F) as D.
  destruct (pickCase r x cs), (pickCase r' x cs'); try contradiction; auto.
Qed.

Lemma same_members0 : forall ctxs ms, Forall (fun m => forall k m', SameM m m' -> checkMember r ctxs k m = true -> forall fs c,
    decMember camel r dcall n cenv d m fs c = decMember camel r' dcall' n cenv d m' fs c) ms ->
  forall k ms', Forall2 SameM ms ms' -> checkMembers r ctxs k ms = true -> forall fs c,
    decMembers camel r dcall n cenv d ms fs c = decMembers camel r' dcall' n cenv d ms' fs c.
Proof.
  intros ctxs. induction ms as [|m ms IH]; intros F k ms' S C fs c; inversion S as [|? m' ? ms1 SM S1]; subst; auto.
  cbn [decMembers checkMembers] in *. apply andb_true_iff in C as [C1 C2]. rewrite (Forall_inv F k m' SM C1).
  destruct (decMember camel r' dcall' n cenv d m' fs c) as [[fs1 c1]| | |]; cbn [bind]; auto.
  eapply IH; eauto. exact (Forall_inv_tail F).
Qed.
Lemma same_member : forall ctxs m k m', SameM m m' -> checkMember r ctxs k m = true -> forall fs c,
    decMember camel r dcall n cenv d m fs c = decMember camel r' dcall' n cenv d m' fs c.
Proof.
  intros ctxs. induction m as [nm t|u tag len cs IH| | |] using member_ind'; intros k m' S C fs c; inversion S; subst; auto.
  - cbn [decMember]. rewrite (same_type ctxs k fs t t' c); auto.
  - rewrite !decMember_union. cbn zeta. rewrite Forall_forall in IH. destruct (check_union _ _ _ _ _ _ _ C) as (_ & _ & CC).
    assert (B : forall c, (x <- refVal camel fs cenv tag ;; decPick camel r dcall n cenv dat cs x cs fs c) =
                          (x <- refVal camel fs cenv tag ;; decPick camel r' dcall' n cenv dat cs' x cs' fs c)).
    { intros c0. destruct (refVal camel fs cenv tag) as [x| | |]; cbn [bind]; auto. rewrite !decPick_choice.
      pose proof (same_choice x cs cs' ltac:(assumption)) as P. destruct (choice r x cs cs) as [ms|] eqn:E, (choice r' x cs' cs') as [ms'|]; try contradiction; auto.
      destruct (choice_in _ _ _ _ E) as [l I]. destruct (CC _ I) as [_ CM]. cbn [ucase_members] in CM. eapply same_members0; eauto. exact (IH _ I). }
    destruct len as [[f|i]|], len' as [[f'|i']|]; cbn [sameLengths sameLength decConstr] in *; try contradiction.
    + subst f'. destruct (refVal camel fs cenv f); cbn [bind]; auto. now apply same_within.
    + match goal with L : sameInt _ _ _ _ |- _ => destruct (same_integer _ _ L) as (v & E & E') end. rewrite E, E'. cbn [bind]. now apply same_leaving.
    + apply B.
Qed.
Lemma same_members : forall ctxs ms k ms', Forall2 SameM ms ms' -> checkMembers r ctxs k ms = true -> forall fs c,
    decMembers camel r dcall n cenv d ms fs c = decMembers camel r' dcall' n cenv d ms' fs c.
Proof. intros. eapply same_members0; eauto. apply Forall_forall. intros. eapply same_member; eauto. Qed.
End Body.

(** The fields. *)
Definition membersDecl := fix membersDecl (r : resolver) (ms : list member) : outcome (list (string * gtype)) :=
  match ms with
  | [] => Ok []
  | MFail :: ms' | MIgnore :: ms' => membersDecl r ms'
  | m :: ms' => a <- memberDecl camel r m ;; b <- membersDecl r ms' ;; Ok (a ++ b)
  end.
Definition casesDecl := fix casesDecl (r : resolver) (cs : list ucase) : outcome (list (string * gtype)) :=
  match cs with
  | [] => Ok []
  | UCase _ ms :: cs' => d <- membersDecl r ms ;; rest <- casesDecl r cs' ;; Ok (d ++ rest)
  end.
Lemma memberDecl_union : forall r u tag len cs, memberDecl camel r (MUnion u tag len cs) = casesDecl r cs.
Proof.
  intros q u tag len cs. cbn [memberDecl]. induction cs as [|[l ms] cs IH]; cbn [casesDecl]; auto. rewrite IH. f_equal.
  clear IH. induction ms as [|m ms IH]; cbn [membersDecl]; auto. rewrite IH. reflexivity.
Qed.
Lemma same_decl : forall m m', SameM m m' -> memberDecl camel r m = memberDecl camel r' m'.
Proof.
  induction m as [nm t|u tag len cs IH| | |] using member_ind'; intros m' S; inversion S; subst; auto.
  - cbn [memberDecl]. now rewrite (same_tipe t t').
  - rewrite !memberDecl_union. match goal with F : Forall2 SameC cs cs' |- _ => revert IH; induction F as [|? ? cs0 cs1 [l l' ms ms' L M] F IHF] end; intros IH; auto.
    cbn [casesDecl]. pose proof (Forall_inv IH) as I1. cbn in I1.
    assert (E : membersDecl r ms = membersDecl r' ms').
    { clear - M I1. induction M as [|m m' ms ms' SM M IHM]; auto. pose proof (Forall_inv I1 _ SM) as E1. specialize (IHM (Forall_inv_tail I1)).
      destruct SM; cbn [membersDecl]; rewrite ?E1, ?IHM; reflexivity. }
    rewrite E. rewrite IHF; auto; [|exact (Forall_inv_tail IH)]. constructor; auto.
Qed.
Lemma same_structDecl : forall s s', sameStruct cv cv' s s' -> structDecl camel r s = structDecl camel r' s'.
Proof.
  intros s s' (_ & _ & _ & F). unfold structDecl. assert (E : mapM (memberDecl camel r) (members_of s) = mapM (memberDecl camel r') (members_of s')).
  { induction F as [|m m' ms ms' SM F IH]; auto. cbn [mapM]. rewrite (same_decl _ _ SM), IH. reflexivity. }
  now rewrite E.
Qed.

Hypothesis Hstr : forall nm s, Struct r nm = Some s -> Extern s = false -> checkStruct camel r s = true /\ exists s', Struct r' nm = Some s' /\ sameStruct cv cv' s s'.
Lemma same_call : forall m nm cenv c, known nm -> decCall camel r m nm cenv c = decCall camel r' m nm cenv c.
Proof.
  induction m as [|m IH]; intros nm cenv c (s & E & X); destruct (Hstr _ _ E X) as (CS & s' & E' & SS); cbn [decCall]; rewrite E, E', (same_structDecl _ _ SS);
    destruct SS as (_ & SC & _ & F); rewrite SC; auto.
  destruct (structDecl camel r' s') as [ds| | |]; cbn [bind]; auto. destruct (ctxArgs cenv (scontexts s')) as [args| | |]; cbn [bind]; auto.
  destruct (checked_parts _ _ _ CS) as (C1 & _). erewrite (same_members (decCall camel r m) (decCall camel r' m)); eauto.
Qed.
Theorem same_struct : forall m s s' fs cenv c, checkStruct camel r s = true -> sameStruct cv cv' s s' ->
  decStruct camel r m s fs cenv c = decStruct camel r' m s' fs cenv c.
Proof.
  intros [|m] s s' fs cenv c CS (_ & _ & _ & F); auto. cbn [decStruct]. destruct (checked_parts _ _ _ CS) as (C1 & _).
  eapply same_members; eauto. intros. now apply same_call.
Qed.
End Same.
