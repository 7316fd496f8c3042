(** Files denoted by texts have the shape of [SyntaxForm], and every file of that
    shape is denoted by some text. *)
From Coq Require Import ZArith String Ascii List Bool Lia ZifyBool ZifyNat.
From Verif Require Import Base Ast SyntaxSpec SyntaxForm PegUtf8 PegLexical PegSound PegComplete PegSpace.
Import ListNotations.
Open Scope string_scope.
Open Scope list_scope.
Open Scope Z_scope.

(** * Denoted files are shaped *)
Definition makes {A} (R : prod A) (Q : A -> Prop) : Prop := forall a ss i r, R a ss i r -> Q a /\ Forall goodStruct ss.

Lemma mk_follow : forall A B (R : prod A) (K : A -> prod B) (P : A -> Prop) (Q : B -> Prop),
  makes R P -> (forall a, P a -> makes (K a) Q) -> makes (follow R K) Q.
Proof.
  intros A B R K P Q H1 H2 b ss i r (a & s1 & s2 & m & X & Y & ->). destruct (H1 _ _ _ _ X) as [Pa F1].
  destruct (H2 a Pa _ _ _ _ Y) as [Qb F2]. split; auto. apply Forall_app. auto.
Qed.
Lemma mk_empty : forall A (a : A) (Q : A -> Prop), Q a -> makes (empty a) Q.
Proof. intros A a Q H b ss i r (-> & -> & _). auto. Qed.
Lemma mk_either : forall A (R1 R2 : prod A) Q, makes R1 Q -> makes R2 Q -> makes (either R1 R2) Q.
Proof. intros A R1 R2 Q H1 H2 a ss i r [H|H]; eauto. Qed.
Lemma mk_star : forall A (R : prod A) Q, makes R Q -> makes (star R) (Forall Q).
Proof.
  intros A R Q H l ss i r S. induction S as [|a l s1 s2 i m r X Y [IH1 IH2]]; auto.
  destruct (H _ _ _ _ X). split; [constructor|apply Forall_app]; auto.
Qed.
Lemma mk_maybe : forall A (R : prod A) Q, makes R Q -> makes (maybe R) (fun o => match o with Some a => Q a | None => True end).
Proof. intros A R Q H [a|] ss i r X; [apply H in X; exact X|]. destruct X as [-> _]. auto. Qed.
Lemma mk_as : forall A B (f : A -> B) (R : prod A) P (Q : B -> Prop), makes R P -> (forall a, P a -> Q (f a)) -> makes (as_ f R) Q.
Proof. intros A B f R P Q H F. eapply mk_follow; [exact H|]. intros a Pa. apply mk_empty. auto. Qed.
Lemma mk_such : forall A (q : A -> Prop) (R : prod A) Q, makes R Q -> makes (such q R) (fun a => Q a /\ q a).
Proof. intros A q R Q H a ss i r [X Y]. destruct (H _ _ _ _ X). auto. Qed.
Lemma mk_declare : forall (R : prod struct), makes R goodStruct -> makes (declare R) goodStruct.
Proof. intros R H a ss i r (inner & X & ->). destruct (H _ _ _ _ X). split; auto. apply Forall_app. auto. Qed.
Lemma mk_tok : forall w, makes (tok w) (fun _ => True).
Proof. intros w u ss i r [-> _]. auto. Qed.
Lemma mk_gap : makes gap (fun _ => True).
Proof. intros u ss i r [-> _]. auto. Qed.
Lemma mk_gap1 : makes gap1 (fun _ => True).
Proof. intros u ss i r [-> _]. auto. Qed.
Lemma mk_Identifier : makes Identifier isIdentifier.
Proof.
  intros n ss i r (-> & c & cs & F & Fs & _ & _ & ->). split; auto. unfold isIdentifier. rewrite points_named; auto.
  cbn [forallb]. rewrite Fs. chars.
Qed.
Lemma upper_later : forall cs, forallb upperLater cs = true -> forallb later_ cs = true.
Proof. intros cs H. rewrite forallb_forall in *. intros x X. specialize (H x X). chars. Qed.
Lemma mk_ConstIdentifier : makes ConstIdentifier isConstant.
Proof.
  intros n ss i r (-> & c & cs & F & Fs & _ & _ & ->). split; auto. unfold isConstant. rewrite points_named; auto.
  cbn [forallb]. rewrite (upper_later _ Fs). chars.
Qed.
Lemma valueOf_nonneg : forall base ds n, 0 <= base -> 0 <= n -> Forall (fun c => 0 <= digitValue c) ds ->
  0 <= fold_left (fun n c => n * base + digitValue c) ds n.
Proof. intros base ds n B N F. revert n N. induction F; intros n N; cbn [fold_left]; auto. apply IHF. nia. Qed.
Lemma digits_nonneg : forall class ds i r, (forall c, class c = true -> digit16 c = true) -> digits class ds i r ->
  Forall (fun c => 0 <= digitValue c) ds.
Proof.
  intros class ds i r N (_ & F & _). rewrite forallb_forall in F. apply Forall_forall. intros x X. specialize (N x (F x X)).
  unfold digitValue, digit16, digit10, lower, between in *.
  destruct ((48 <=? x) && (x <=? 57)) eqn:E1; [lia|]. destruct ((97 <=? x) && (x <=? 122)) eqn:E2; lia.
Qed.
Lemma mk_Literal : makes Literal isLiteral.
Proof.
  intros v ss i r (-> & L & H). split; auto. unfold isLiteral. split; [|exact L]. clear L.
  destruct H as [(ds & m & -> & D & ->)|[(ds & m & -> & D & ->)|[(ds & Hd & D & ->)|(-> & S & -> & X)]]]; [| | |lia];
  apply valueOf_nonneg; try lia; (eapply digits_nonneg; [|exact D]); intros c Hc; unfold digit16, digit10, digit8, between in *; lia.
Qed.

Lemma mk_ended : forall A (R : prod A) Q, makes R Q -> makes (ended R) Q.
Proof.
  intros A R Q H. unfold ended. eapply mk_follow; [apply mk_gap|intros _ _]. eapply mk_follow; [exact H|intros x X].
  eapply mk_follow; [apply mk_gap|intros _ _]. eapply mk_follow; [apply mk_tok|intros _ _]. apply mk_empty. exact X.
Qed.

Ltac mk := lazymatch goal with
  | |- makes (follow _ _) _ => eapply mk_follow; [mk|cbn beta; intros; mk]
  | |- makes (either _ _) _ => apply mk_either; [mk|mk]
  | |- makes (empty _) _ => apply mk_empty; try solve [auto]
  | |- makes (star _) _ => eapply mk_star; mk
  | |- makes (maybe _) _ => eapply mk_maybe; mk
  | |- makes (as_ _ _) _ => eapply mk_as; [mk|cbn beta; intros]
  | |- makes (such _ _) _ => eapply mk_such; mk
  | |- makes (declare _) _ => eapply mk_declare; mk
  | |- makes (tok _) _ => apply mk_tok
  | |- makes gap _ => apply mk_gap
  | |- makes gap1 _ => apply mk_gap1
  | |- makes Identifier _ => apply mk_Identifier
  | |- makes ConstIdentifier _ => apply mk_ConstIdentifier
  | |- makes Literal _ => apply mk_Literal
  | |- makes (ended _) _ => eapply mk_ended; mk
  | |- _ => solve [eauto] || idtac
  end.
Lemma mk_Int : makes Int goodInt. Proof. unfold Int. mk; auto. Qed.
Lemma mk_Ref : makes Ref goodRef. Proof. unfold Ref. mk; cbn; auto. Qed.
Lemma mk_listOf : forall A (R : prod A) Q, makes R Q -> makes (listOf R) (fun l => l <> [] /\ Forall Q l).
Proof. intros A R Q H. unfold listOf. mk. split; [discriminate|]. constructor; auto. Qed.
#[local] Hint Resolve mk_Int mk_Ref : core.
Lemma mk_Range : makes Range goodRange.
Proof. unfold Range. mk; split; cbn; auto. Qed.
Lemma mk_ranges : makes (listOf Range) goodList.
Proof. apply mk_listOf, mk_Range. Qed.
#[local] Hint Resolve mk_ranges : core.
Lemma mk_Constraint : makes Constraint_ goodList. Proof. unfold Constraint_. mk. Qed.
Lemma mk_IntType : makes IntType isSize.
Proof. unfold IntType, Size, isSize. mk; cbn; auto. Qed.
Lemma mk_Len : makes Len goodLength. Proof. unfold Len. mk; auto. Qed.
Lemma mk_StructName : makes StructName isIdentifier. Proof. unfold StructName. mk. Qed.
Lemma mk_Contexts : makes Contexts (Forall isIdentifier).
Proof.
  unfold Contexts. apply mk_either; [|apply mk_empty; auto]. do 5 (eapply mk_follow; [mk|intros _ _]).
  intros l ss i r H. apply (mk_listOf _ _ _ mk_Identifier) in H. tauto.
Qed.
#[local] Hint Resolve mk_Constraint mk_IntType mk_Len mk_StructName mk_Contexts : core.

Lemma variable_of : forall l, goodLength l -> notConstant l -> variable l.
Proof.
  intros [[s n]|i] G N; auto. cbn in *. intros E C. apply (N E). destruct G as [_ G].
  unfold isConstant, constantName in *. destruct (points n) as [|c cs]; [destruct C|]. destruct C as [C1 C2].
  cbn [forallb hd]. rewrite C2. split; chars.
Qed.

Section Structs.
  Variable SD : prod struct.
  Hypothesis HSD : makes SD goodStruct.
  Definition structType (t : type) : Prop := exists n, isIdentifier n /\ t = TStruct n.
  Lemma mk_StructRef : makes (StructRef SD) structType.
  Proof using HSD. unfold StructRef, structType. mk; eauto. destruct H; eauto. Qed.
  Hint Resolve mk_StructRef : core.
  Lemma mk_ArrayBase : makes (ArrayBase SD) element.
  Proof using HSD.
    unfold ArrayBase. apply mk_either; [mk; auto using element|]. intros t ss i r H. apply mk_StructRef in H.
    destruct H as [(n & H & ->) F]. split; auto. constructor; auto.
  Qed.
  Hint Resolve mk_ArrayBase : core.
  Lemma mk_Remainder : makes (Remainder SD) remainder.
  Proof using HSD. unfold Remainder. mk. constructor; auto. Qed.
  Lemma mk_Field : makes (Field SD) goodField.
  Proof using HSD.
    unfold Field, FixedArray, VarArray, IntField, String_, StructField. mk.
    - apply gf_fixed; auto.
    - destruct H4 as [G N]. apply gf_var; auto. apply variable_of; auto.
    - destruct a3; [apply gf_range|apply gf_int]; auto.
    - apply gf_nul; auto.
    - destruct H as (s & Hs & ->). apply gf_struct; auto.
  Qed.
  Hint Resolve mk_Remainder mk_Field : core.
  Lemma mk_Extent : makes (Extent SD) (fun m => m = MIgnore \/ remainder m).
  Proof using HSD.
    unfold Extent. apply mk_either; [mk; auto|]. intros m ss i r H. apply mk_Remainder in H. tauto.
  Qed.
  Hint Resolve mk_Extent : core.
  Lemma mk_Body : makes (Body SD) goodBody.
  Proof using HSD.
    unfold Body, Fields. mk.
    - apply gb_fields; auto.
    - apply gb_fail.
    - apply (gb_ignore []). auto.
    - destruct a0 as [m|]; [|rewrite app_nil_r; apply gb_fields; auto].
      destruct H0 as [->|H0]; [apply gb_ignore|apply gb_remainder]; auto.
  Qed.
  Hint Resolve mk_Body : core.
  Lemma mk_CaseLabel : makes CaseLabel (fun l => match l with Some l => goodList l | None => True end).
  Proof using. unfold CaseLabel. mk; auto. Qed.
  Hint Resolve mk_CaseLabel : core.
  Lemma mk_Case : makes (Case SD) goodCase.
  Proof using HSD. unfold Case. mk. split; auto. Qed.
  Hint Resolve mk_Case : core.
  Lemma mk_Union : makes (Union SD) goodMember.
  Proof using HSD. unfold Union. mk. apply gm_union; auto. Qed.
  Lemma mk_Member : makes (Member SD) goodMember.
  Proof using HSD.
    unfold Member, Position. apply mk_either; [apply mk_either|apply mk_Union].
    - intros m ss i r H. apply mk_Field in H. destruct H. split; auto. apply gm_field; auto.
    - mk. apply gm_ptr; auto.
  Qed.
  Lemma mk_Ending : makes (Ending SD) (fun m => m = MEOS \/ remainder m).
  Proof using HSD.
    unfold Ending. apply mk_either; [|mk; auto]. intros m ss i r H. apply mk_Remainder in H. tauto.
  Qed.
  Hint Resolve mk_Member mk_Ending : core.
  Lemma mk_Struct : makes (Struct SD) goodStruct.
  Proof using HSD.
    unfold Struct. mk. split; auto. split; auto. cbn [smembers].
    match goal with |- goodMembers (_ ++ match ?e with _ => _ end) => destruct e as [m|] end.
    - match goal with H : _ \/ remainder m |- _ => destruct H as [-> | H] end; [apply gs_eos|apply gs_remainder]; auto.
    - rewrite app_nil_r. apply gs_members; auto.
  Qed.
End Structs.
Lemma mk_StructN : forall n, makes (StructN n) goodStruct.
Proof. induction n as [|n IH]; [intros a ss i r []|]. apply mk_Struct. exact IH. Qed.
Lemma mk_StructDecl : makes StructDecl goodStruct.
Proof. intros a ss i r [n H]. apply mk_StructN in H. exact H. Qed.
#[local] Hint Resolve mk_StructDecl : core.
Definition goodDecl (d : declaration) : Prop :=
  match d with
  | Const_ c => goodConstant c
  | Context_ c => goodContext c
  | Struct_ s => goodStruct s
  | Pragma_ p => goodPragma p
  end.
Lemma mk_ContextField : makes ContextField goodContextField.
Proof. unfold ContextField. mk. split; cbn [fst snd]; eauto. Qed.
Lemma mk_Identifiers : makes (listOf Identifier) (fun l => l <> [] /\ Forall isIdentifier l).
Proof. apply mk_listOf, mk_Identifier. Qed.
#[local] Hint Resolve mk_ContextField mk_Identifiers : core.
Lemma mk_Decl : makes Decl goodDecl.
Proof.
  unfold Decl. eapply mk_follow; [apply mk_gap|intros _ _]. repeat apply mk_either.
  - unfold ConstDecl. mk. split; auto.
  - unfold ContextDecl. mk. split; auto.
  - unfold StructDef. mk.
  - unfold ExternDecl. mk. split; auto.
  - unfold PragmaDecl. mk. split; auto.
Qed.
#[local] Hint Resolve mk_Decl : core.

Lemma Forall_pick : forall A B (f : A -> list B) (P : A -> Prop) (Q : B -> Prop) l,
  Forall P l -> (forall a, P a -> Forall Q (f a)) -> Forall Q (flat_map f l).
Proof. intros A B f P Q l H F. induction H; cbn [flat_map]; auto. apply Forall_app. auto. Qed.
Theorem denotes_shaped : forall data f, denotes data f -> shaped f.
Proof.
  intros data f (cs & ds & inline & _ & _ & (l & s1 & s2 & m & H & (u & s3 & s4 & k & [-> _] & (-> & -> & _) & ->) & ->) & ->).
  apply (mk_star _ _ _ mk_Decl) in H. destruct H as [H F]. rewrite !app_nil_r. unfold shaped, fileOf. cbn [fconstants fcontexts fstructs fpragmas].
  split; [|split; [|split; [apply Forall_app; split; auto|]]];
  (eapply Forall_pick; [exact H|]); intros [c|c|c|c] G; cbn in G; auto.
Qed.
