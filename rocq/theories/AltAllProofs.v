(** Files with the same members in other spellings, in all structs at once. *)
From Coq Require Import ZArith String List Bool Lia ZifyBool ZifyNat.
From Verif Require Import Base Ast IntervalsModel InspectModel InspectSpec InspectProofs GoLang GenModel GenDecode GenCheck GenSim GenSimBody GenSimProg GenMono WireSpec WireProofs WireComplete WireFacts GenTerm FwdProofs
  PackageSpec PackageProofs PackageFacts PackageMore AltSpec P_Alt ModProofs.
Import ListNotations.
Open Scope string_scope.
Open Scope list_scope.
Open Scope Z_scope.

Section Con.
Variable camel : string -> string.
Variables r r' : resolver.
Hypothesis CN : forall x, Constant r x = Constant r' x.
(** The same members in both programs, given that nested structs do the same on valid data. *)
Section Body.
Variable n : nat.
Variable cenv : amap value.
Variable dat : bytes.
Variables dcall dcall' : string -> amap value -> bytes -> outcome (value * bytes).
Hypothesis LV : forall nm cenv, leaves (dcall nm cenv).
Hypothesis HC : forall nm cenv c, goBytes c -> dcall nm cenv c = dcall' nm cenv c.
Notation d := (blen dat).
Notation decM := (decMember camel r dcall n cenv d).
Notation decM' := (decMember camel r' dcall' n cenv d).
Notation decMs := (decMembers camel r dcall n cenv d).
Notation decMs' := (decMembers camel r' dcall' n cenv d).
Lemma con_base : forall t c, goBytes c -> decBase r dcall cenv d t c = decBase r' dcall' cenv d t c.
Proof. intros t c L. destruct t as [sz l| | | |nm| |]; cbn [decBase]; auto. unfold decInt. destruct l; auto. now rewrite (mod_inList r r' CN). Qed.
Lemma con_for : forall t m k c, goBytes c -> decFor r dcall cenv d m t k c = decFor r' dcall' cenv d m t k c.
Proof.
  intros t. induction m as [|m IH]; intros k c L; cbn [decFor]; auto. destruct (k <=? 0); auto. rewrite <- con_base by auto. destruct (decBase r dcall cenv d t c) as [[v c1]| | |] eqn:E; cbn [bind]; auto.
  rewrite IH; auto. eapply good_suffix; eauto. eapply leaves_base; eauto.
Qed.
Lemma con_while : forall t m c, goBytes c -> decWhile r dcall cenv d m t c = decWhile r' dcall' cenv d m t c.
Proof.
  intros t. induction m as [|m IH]; intros c L; cbn [decWhile]; auto. destruct (blen c <=? 0); auto. rewrite <- con_base by auto. destruct (decBase r dcall cenv d t c) as [[v c1]| | |] eqn:E; cbn [bind]; auto.
  rewrite IH; auto. eapply good_suffix; eauto. eapply leaves_base; eauto.
Qed.
Lemma con_type : forall fs t c, goBytes c -> decType camel r dcall n cenv d fs t c = decType camel r' dcall' n cenv d fs t c.
Proof.
  intros fs t c L. destruct t as [sz l| | | |nm|b i|b [[f|i]|]]; cbn [decType]; try (now apply con_base).
  - rewrite (mod_integer r r' CN). destruct (integerOf r' i); cbn [bind]; auto. now rewrite con_for.
  - destruct (refVal camel fs cenv f); cbn [bind]; auto. rewrite (mod_tipe camel r r' CN). destruct (tipe camel r' b); cbn [bind]; auto. now rewrite con_for.
  - rewrite (mod_integer r r' CN). destruct (integerOf r' i); cbn [bind]; auto. apply leaving_good; auto. intros c0 L0. now rewrite con_while.
  - now rewrite con_while.
Qed.
Lemma con_members0 : forall ms, Forall (fun m => forall fs c, goBytes c -> decM m fs c = decM' m fs c) ms -> forall fs c, goBytes c -> decMs ms fs c = decMs' ms fs c.
Proof.
  induction ms as [|m ms IH]; intros F fs c L; cbn [decMembers]; auto. rewrite <- (Forall_inv F) by auto. destruct (decM m fs c) as [[a c1]| | |] eqn:E; cbn [bind]; auto.
  apply IH; [eauto using Forall_inv_tail|]. eapply good_suffix; eauto. apply (tame_member camel r dcall LV n cenv dat m _ _ _ _ E).
Qed.
Lemma con_member : forall m fs c, goBytes c -> decM m fs c = decM' m fs c.
Proof.
  induction m as [nm b|u tag len cs IH| | |] using member_ind'; intros fs c L; auto.
  - cbn [decMember]. now rewrite con_type.
  - rewrite !decMember_union. cbn zeta.
    assert (B : forall c, goBytes c -> (x <- refVal camel fs cenv tag ;; decPick camel r dcall n cenv dat cs x cs fs c) = (x <- refVal camel fs cenv tag ;; decPick camel r' dcall' n cenv dat cs x cs fs c)).
    { intros c0 L0. destruct (refVal camel fs cenv tag) as [x| | |]; cbn [bind]; auto. rewrite !decPick_choice, <- (mod_choice r r' CN).
      destruct (choice r x cs cs) as [ms|] eqn:E; auto. destruct (choice_in r _ _ _ E) as [l Il]. rewrite Forall_forall in IH. specialize (IH _ Il). cbn in IH. now apply con_members0. }
    destruct len as [[f|i]|]; cbn [decConstr]; auto.
    + destruct (refVal camel fs cenv f); cbn [bind]; auto. now apply within_good.
    + rewrite (mod_integer r r' CN). destruct (integerOf r' i); cbn [bind]; auto. now apply leaving_good.
Qed.
Lemma con_members : forall ms fs c, goBytes c -> decMs ms fs c = decMs' ms fs c.
Proof. intros ms. apply con_members0. apply Forall_forall. intros m _. apply con_member. Qed.
End Body.

Hypothesis CK : forall nm s, Struct r nm = Some s -> Extern s = false -> checkStruct camel r s = true.
Hypothesis CK' : forall nm s, Struct r' nm = Some s -> Extern s = false -> checkStruct camel r' s = true.
Definition respelt (s s' : struct) : Prop := scontexts s' = scontexts s /\ Extern s' = Extern s /\ altMembers (Constant r) (members_of s) (members_of s').
Hypothesis ST : forall nm, match Struct r nm, Struct r' nm with Some s, Some s' => respelt s s' | None, None => True | _, _ => False end.

Lemma respelt_blank : forall s s', respelt s s' -> blank camel (Constant r) s = blank camel (Constant r') s'.
Proof. intros s s' (_ & _ & A). rewrite <- (mod_blank camel r r' CN). unfold blank. now apply (alt_blanks camel r). Qed.
Lemma decl_zeros : forall q s, (Extern s = false -> checkStruct camel q s = true) -> exists ds, structDecl camel q s = Ok ds /\ zeros ds = blank camel (Constant q) s.
Proof.
  intros q s C. destruct (Extern s) eqn:X.
  - exists []. unfold structDecl, blank. unfold Extern in X. unfold members_of. destruct (smembers s); [discriminate|]. split; reflexivity.
  - destruct (structDecl_ok camel q s (C eq_refl)) as [ds D]. exists ds. split; auto. now apply zeros_blank.
Qed.
Lemma respelt_body : forall m n cenv fs s s' c, (forall nm cenv c, goBytes c -> decCall camel r m nm cenv c = decCall camel r' m nm cenv c) -> respelt s s' -> goBytes c -> n = m ->
  decMembers camel r (decCall camel r m) n cenv (blen c) (members_of s) fs c = decMembers camel r' (decCall camel r' m) n cenv (blen c) (members_of s') fs c.
Proof.
  intros m n cenv fs s s' c HC (_ & _ & A) L ->. rewrite (proj1 (proj2 (alt_body camel r m cenv c)) _ _ A) by auto. apply con_members; auto. intros nm e. apply leaves_call.
Qed.
Lemma respelt_call : forall m nm cenv c, goBytes c -> decCall camel r m nm cenv c = decCall camel r' m nm cenv c.
Proof.
  induction m as [|m IH]; intros nm cenv c L; cbn [decCall]; pose proof (ST nm) as S; destruct (Struct r nm) as [s|] eqn:E, (Struct r' nm) as [s'|] eqn:E'; try contradiction; auto;
    destruct (decl_zeros r s (CK _ _ E)) as (ds & -> & Z1), (decl_zeros r' s' (CK' _ _ E')) as (ds' & -> & Z2); cbn [bind]; destruct S as (SC & X & A); rewrite SC; destruct (ctxArgs cenv (scontexts s)); cbn [bind]; auto.
  rewrite Z1, Z2. rewrite <- (respelt_blank s s') by (split; auto). rewrite (respelt_body m m _ _ s s' c IH); auto. split; auto.
Qed.
Lemma respelt_struct : forall m s s' fs cenv c, respelt s s' -> goBytes c -> decStruct camel r m s fs cenv c = decStruct camel r' m s' fs cenv c.
Proof. intros [|m] s s' fs cenv c R L; cbn [decStruct]; auto. apply respelt_body; auto. apply respelt_call. Qed.
End Con.
