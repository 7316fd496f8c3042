(** How much the functions of [PegDescent] consume. *)
From Coq Require Import ZArith String Ascii List Bool Lia ZifyBool ZifyNat.
From Verif Require Import Base Ast PegModel PegGrammar PegDescent.
Import ListNotations.
Open Scope string_scope.
Open Scope list_scope.
Open Scope Z_scope.

Definition len (d : dst) : nat := length (drest d).

Definition shrinks {A} (p : P A) : Prop := forall d a d', p d = Done a d' -> (len d' <= len d)%nat.
Definition eatsSome {A} (p : P A) : Prop := forall d a d', p d = Done a d' -> (len d' < len d)%nat.

Lemma eats_shrinks : forall A (p : P A), eatsSome p -> shrinks p.
Proof. intros A p H d a d' E. apply H in E. lia. Qed.

Lemma shrinks_ret : forall A (a : A), shrinks (ret a).
Proof. intros A a d b d' E. inversion E; subst. lia. Qed.

Lemma shrinks_then : forall A B (p : P A) (k : A -> P B),
  shrinks p -> (forall a, shrinks (k a)) -> shrinks (andThen p k).
Proof.
  intros A B p k Hp Hk d b d' E. unfold andThen in E.
  destruct (p d) eqn:Ep; [discriminate|]. apply Hp in Ep. apply Hk in E. lia.
Qed.
Lemma eats_then1 : forall A B (p : P A) (k : A -> P B),
  eatsSome p -> (forall a, shrinks (k a)) -> eatsSome (andThen p k).
Proof.
  intros A B p k Hp Hk d b d' E. unfold andThen in E.
  destruct (p d) eqn:Ep; [discriminate|]. apply Hp in Ep. apply Hk in E. lia.
Qed.
Lemma eats_then2 : forall A B (p : P A) (k : A -> P B),
  shrinks p -> (forall a, eatsSome (k a)) -> eatsSome (andThen p k).
Proof.
  intros A B p k Hp Hk d b d' E. unfold andThen in E.
  destruct (p d) eqn:Ep; [discriminate|]. apply Hp in Ep. apply Hk in E. lia.
Qed.
Lemma shrinks_or : forall A (p q : P A), shrinks p -> shrinks q -> shrinks (p <|> q).
Proof.
  intros A p q Hp Hq d a d' E. unfold orElse in E. destruct (p d) eqn:Ep.
  - apply Hq in E. exact E.
  - inversion E; subst. eapply Hp; eauto.
Qed.
Lemma eats_or : forall A (p q : P A), eatsSome p -> eatsSome q -> eatsSome (p <|> q).
Proof.
  intros A p q Hp Hq d a d' E. unfold orElse in E. destruct (p d) eqn:Ep.
  - apply Hq in E. exact E.
  - inversion E; subst. eapply Hp; eauto.
Qed.
Lemma shrinks_opt : forall A (p : P A), shrinks p -> shrinks (opt p).
Proof.
  intros A p Hp d a d' E. unfold opt in E. destruct (p d) eqn:Ep.
  - inversion E; subst. unfold len. cbn. lia.
  - inversion E; subst. eapply Hp; eauto.
Qed.
Lemma shrinks_manyF : forall A (p : P A) n, shrinks p -> shrinks (manyF n p).
Proof.
  intros A p n Hp. induction n as [|n IH]; intros d a d' E; cbn [manyF] in E.
  - inversion E; subst. lia.
  - destruct (p d) eqn:Ep.
    + inversion E; subst. unfold len. cbn. lia.
    + destruct (manyF n p d0) eqn:Em; [discriminate|]. inversion E; subst.
      apply Hp in Ep. apply IH in Em. lia.
Qed.
Lemma shrinks_many : forall A (p : P A), shrinks p -> shrinks (many p).
Proof. intros A p Hp d a d' E. unfold many in E. eapply shrinks_manyF; eauto. Qed.
Lemma eats_cls : forall c r, eatsSome (cls c r).
Proof.
  intros c r d a d' E. unfold cls in E. unfold len. destruct (drest d); [discriminate|].
  destruct (inClass c r z); [|discriminate]. inversion E; subst. cbn. lia.
Qed.
Lemma eats_any : eatsSome any.
Proof.
  intros d a d' E. unfold any in E. unfold len. destruct (drest d); [discriminate|].
  inversion E; subst. cbn. lia.
Qed.
Lemma stripPrefix_spec : forall w r r', stripPrefix w r = Some r' <-> r = w ++ r'.
Proof.
  induction w as [|c w IH]; cbn [stripPrefix app]; intros r r'.
  - split; congruence.
  - destruct r as [|x r]; [split; discriminate|].
    destruct (x =? c) eqn:E.
    + assert (x = c) by lia. subst. rewrite IH. split; congruence.
    + split; [discriminate|]. intros H. inversion H. lia.
Qed.
Lemma lit_done : forall s d u d', lit s d = Done u d' ->
  drest d = codes s ++ drest d' /\ dling d' = dling d /\ derrs d' = derrs d.
Proof.
  intros s d u d' E. unfold lit in E. destruct (stripPrefix (codes s) (drest d)) eqn:S; [|discriminate].
  inversion E; subst. cbn. apply stripPrefix_spec in S. auto.
Qed.
Lemma shrinks_lit : forall s, shrinks (lit s).
Proof.
  intros s d u d' E. apply lit_done in E. destruct E as (E & _). unfold len. rewrite E, app_length. lia.
Qed.
Lemma eats_lit : forall c s, eatsSome (lit (String c s)).
Proof.
  intros c s d u d' E. apply lit_done in E. destruct E as (E & _). unfold len. rewrite E, app_length.
  cbn. lia.
Qed.
Lemma shrinks_not : forall A (p : P A), shrinks (notP p).
Proof.
  intros A p d a d' E. unfold notP in E. destruct (p d); [|discriminate].
  inversion E; subst. unfold len. cbn. lia.
Qed.
Lemma shrinks_texted : forall A (p : P A), shrinks p -> shrinks (texted p).
Proof.
  intros A p Hp d a d' E. unfold texted in E. destruct (p d) eqn:Ep; [discriminate|].
  inversion E; subst. eapply Hp; eauto.
Qed.
Lemma eats_texted : forall A (p : P A), eatsSome p -> eatsSome (texted p).
Proof.
  intros A p Hp d a d' E. unfold texted in E. destruct (p d) eqn:Ep; [discriminate|].
  inversion E; subst. eapply Hp; eauto.
Qed.
Lemma shrinks_record : forall e, shrinks (record_ e).
Proof. intros [e|] d a d' E; inversion E; subst; unfold len; cbn; lia. Qed.
Lemma shrinks_linger : forall s, shrinks (linger s).
Proof. intros s d a d' E. inversion E; subst. unfold len. cbn. lia. Qed.

Create HintDb eats discriminated.
#[export] Hint Resolve shrinks_ret shrinks_or shrinks_opt shrinks_many
  shrinks_lit shrinks_not shrinks_texted shrinks_record shrinks_linger
  eats_or eats_cls eats_any eats_lit eats_texted : eats.
#[export] Hint Extern 1 (shrinks (andThen _ _)) => (apply shrinks_then; [|intros]) : eats.
#[export] Hint Extern 3 (eatsSome (andThen _ _)) => (apply eats_then1; [solve [auto 20 with eats]|intros]) : eats.
#[export] Hint Extern 4 (eatsSome (andThen _ _)) => (apply eats_then2; [solve [auto 20 with eats]|intros]) : eats.
#[export] Hint Extern 8 (shrinks _) => (apply eats_shrinks) : eats.

Ltac eats := auto 30 with eats.

Lemma eats_eol : eatsSome eol. Proof. unfold eol, newline. eats. Qed.
#[export] Hint Resolve eats_eol : eats.
Lemma eats_skip1 : eatsSome skip1.
Proof. unfold skip1, void, comment, multiLine, singleLine, whitespace. eats. Qed.
#[export] Hint Resolve eats_skip1 : eats.
Lemma shrinks_sk : shrinks sk. Proof. unfold sk, void. eats. Qed.
Lemma eats_sk1 : eatsSome sk1. Proof. unfold sk1. eats. Qed.
#[export] Hint Resolve shrinks_sk eats_sk1 : eats.
Lemma eats_ident : eatsSome ident. Proof. unfold ident. eats. Qed.
Lemma eats_cident : eatsSome cident. Proof. unfold cident. eats. Qed.
#[export] Hint Resolve eats_ident eats_cident : eats.
Lemma eats_intLit : eatsSome intLit. Proof. unfold intLit, hex, octal, decimal, some1. eats. Qed.
#[export] Hint Resolve eats_intLit : eats.
Lemma eats_integer : eatsSome integerP. Proof. unfold integerP. eats. Qed.
#[export] Hint Resolve eats_integer : eats.
Lemma eats_idref : eatsSome idrefP. Proof. unfold idrefP. eats. Qed.
Lemma eats_comma : forall A (p : P A), shrinks p -> eatsSome (commaThen p).
Proof. unfold commaThen. eats. Qed.
#[export] Hint Resolve eats_idref eats_comma : eats.
Lemma eats_identList : eatsSome identList. Proof. unfold identList. eats. Qed.
Lemma eats_range : eatsSome rangeP. Proof. unfold rangeP. eats. Qed.
#[export] Hint Resolve eats_identList eats_range : eats.
Lemma eats_intList : eatsSome intListP. Proof. unfold intListP. eats. Qed.
#[export] Hint Resolve eats_intList : eats.
Lemma eats_constraint : eatsSome constraintP. Proof. unfold constraintP. eats. Qed.
Lemma eats_intType : eatsSome intTypeP. Proof. unfold intTypeP, sizeP. eats. Qed.
Lemma eats_length : eatsSome lengthP. Proof. unfold lengthP, leftoverP. eats. Qed.
#[export] Hint Resolve eats_constraint eats_intType eats_length : eats.
Lemma eats_structIdent : eatsSome structIdent. Proof. unfold structIdent. eats. Qed.
Lemma eats_contextRefs : eatsSome contextRefs. Proof. unfold contextRefs. eats. Qed.
#[export] Hint Resolve eats_structIdent eats_contextRefs : eats.
Lemma shrinks_optContexts : shrinks optContexts. Proof. unfold optContexts. eats. Qed.
#[export] Hint Resolve shrinks_optContexts : eats.

Section Members.
  Variable sd : P struct.
  Hypothesis Hsd : eatsSome sd.
  Lemma eats_structRef : eatsSome (structRef sd). Proof. unfold structRef. eats. Qed.
  Hint Resolve eats_structRef : eats.
  Lemma eats_arrayBase : eatsSome (arrayBase sd). Proof. unfold arrayBase. eats. Qed.
  Hint Resolve eats_arrayBase : eats.
  Lemma eats_fixedArray : eatsSome (fixedArray sd). Proof. unfold fixedArray. eats. Qed.
  Lemma eats_varArray : eatsSome (varArray sd). Proof. unfold varArray. eats. Qed.
  Lemma eats_remainder : eatsSome (remainder sd). Proof. unfold remainder. eats. Qed.
  Hint Resolve eats_fixedArray eats_varArray eats_remainder : eats.
  Lemma eats_arrayP : eatsSome (arrayP sd). Proof. unfold arrayP. eats. Qed.
  Lemma eats_smInteger : eatsSome smInteger. Proof. unfold smInteger. eats. Qed.
  Lemma eats_smPosition : eatsSome smPosition. Proof. unfold smPosition. eats. Qed.
  Lemma eats_smString : eatsSome smString. Proof. unfold smString. eats. Qed.
  Lemma eats_smStruct : eatsSome (smStruct sd). Proof. unfold smStruct. eats. Qed.
  Lemma eats_extent : eatsSome (extent sd). Proof. unfold extent. eats. Qed.
  Hint Resolve eats_arrayP eats_smInteger eats_smPosition eats_smString eats_smStruct eats_extent : eats.
  Lemma eats_unionField : eatsSome (unionField sd). Proof. unfold unionField. eats. Qed.
  Hint Resolve eats_unionField : eats.
  Lemma shrinks_unionFields : shrinks (unionFields sd). Proof. unfold unionFields. eats. Qed.
  Hint Resolve shrinks_unionFields : eats.
  Lemma shrinks_unionBody : shrinks (unionBody sd). Proof. unfold unionBody. eats. Qed.
  Lemma eats_unionCase : eatsSome unionCase. Proof. unfold unionCase. eats. Qed.
  Hint Resolve shrinks_unionBody eats_unionCase : eats.
  Lemma eats_unionMember : eatsSome (unionMember sd). Proof. unfold unionMember. eats. Qed.
  Lemma eats_unionLength : eatsSome unionLength. Proof. unfold unionLength. eats. Qed.
  Hint Resolve eats_unionMember eats_unionLength : eats.
  Lemma eats_smUnion : eatsSome (smUnion sd). Proof. unfold smUnion. eats. Qed.
  Hint Resolve eats_smUnion : eats.
  Lemma eats_structMember : eatsSome (structMember sd). Proof. unfold structMember. eats. Qed.
  Lemma eats_structEnding : eatsSome (structEnding sd). Proof. unfold structEnding. eats. Qed.
  Hint Resolve eats_structMember eats_structEnding : eats.
  Lemma eats_structBody : eatsSome (structBody sd). Proof. unfold structBody. eats. Qed.
End Members.

Lemma eats_structDecl : forall n, eatsSome (structDecl n).
Proof.
  induction n; cbn [structDecl].
  - intros d a d' E. discriminate.
  - apply eats_structBody. auto.
Qed.
#[export] Hint Resolve eats_structDecl eats_structRef eats_arrayBase eats_fixedArray eats_varArray
  eats_remainder eats_arrayP eats_smInteger eats_smPosition eats_smString eats_smStruct eats_extent
  eats_unionField shrinks_unionFields shrinks_unionBody eats_unionCase eats_unionMember
  eats_unionLength eats_smUnion eats_structMember eats_structEnding eats_structBody : eats.
Lemma eats_ctxMember : eatsSome ctxMember. Proof. unfold ctxMember. eats. Qed.
#[export] Hint Resolve eats_ctxMember : eats.
Lemma eats_constP : eatsSome constP. Proof. unfold constP. eats. Qed.
Lemma eats_ctxP : eatsSome ctxP. Proof. unfold ctxP. eats. Qed.
Lemma eats_structP : forall n, eatsSome (structP n). Proof. intros. unfold structP. eats. Qed.
Lemma eats_externP : eatsSome externP. Proof. unfold externP. eats. Qed.
Lemma eats_pragmaP : eatsSome pragmaP. Proof. unfold pragmaP. eats. Qed.
#[export] Hint Resolve eats_constP eats_ctxP eats_structP eats_externP eats_pragmaP : eats.
Lemma eats_declP : forall n, eatsSome (declP n). Proof. intros. unfold declP. eats. Qed.
#[export] Hint Resolve eats_declP : eats.

(** The loop of [many] does not depend on its bound. *)
Lemma manyF_enough : forall A (p : P A), eatsSome p -> forall n m d,
  (len d < n)%nat -> (len d < m)%nat -> manyF n p d = manyF m p d.
Proof.
  intros A p Hp. induction n as [|n IH]; intros m d H1 H2; [lia|].
  destruct m as [|m]; [lia|]. cbn [manyF]. destruct (p d) eqn:E; auto.
  apply Hp in E. rewrite (IH m); auto; lia.
Qed.

Lemma many_eq : forall A (p : P A) d, eatsSome p -> many p d =
  match p d with
  | Fail er => Done [] (mkD (drest d) (dling d) er)
  | Done a d' =>
      match many p d' with
      | Fail er => Fail er
      | Done l d'' => Done (a :: l) d''
      end
  end.
Proof.
  intros A p d Hp. unfold many at 1. cbn [manyF]. destruct (p d) eqn:E; auto.
  unfold many. rewrite (manyF_enough A p Hp (length (drest d)) (S (length (drest d0)))); auto.
  apply Hp in E. exact E.
Qed.

Lemma manyF_done : forall A (p : P A) n d, exists l d', manyF n p d = Done l d'.
Proof.
  intros A p. induction n as [|n IH]; intros d; cbn [manyF]; eauto.
  destruct (p d); eauto. destruct (IH d0) as (l & d' & ->). eauto.
Qed.
Lemma many_done : forall A (p : P A) d, exists l d', many p d = Done l d'.
Proof. intros. apply manyF_done. Qed.
