(** The braces of a text without comments are those its file needs, so every
    struct of the text is in the file once. *)
From Coq Require Import ZArith String Ascii List Bool Lia ZifyBool ZifyNat.
From Verif Require Import Base Ast SyntaxSpec SyntaxForm PegUtf8 PegLexical PegSound PegComplete PegSpace.
Import ListNotations.
Open Scope string_scope.
Open Scope list_scope.
Open Scope Z_scope.

Definition inlineBraces (ss : list struct) : Z := total (map structBraces ss).
Lemma total_app : forall a b, total (a ++ b) = total a + total b.
Proof. induction a as [|x a IH]; intros b; cbn; auto. unfold total in *. cbn. rewrite IH. lia. Qed.
Lemma inline_app : forall a b, inlineBraces (a ++ b) = inlineBraces a + inlineBraces b.
Proof. intros. unfold inlineBraces. rewrite map_app. apply total_app. Qed.
Lemma braces_app : forall a b, braces (a ++ b) = braces a + braces b.
Proof. intros. unfold braces. rewrite count_occ_app. lia. Qed.
Lemma braces_none : forall w, ~ In 123 w -> braces w = 0.
Proof. intros w H. unfold braces. rewrite (proj1 (count_occ_not_In Z.eq_dec w 123)); auto. Qed.

(** [w a] braces are written for the value itself, apart from inline structs. *)
Definition weighs {A} (R : prod A) (w : A -> Z) : Prop := forall a ss i r, R a ss i r -> ~ In 47 i ->
  braces i = w a + inlineBraces ss + braces r /\ ~ In 47 r.

Lemma we_ext : forall A (R : prod A) w w', (forall a, w a = w' a) -> weighs R w -> weighs R w'.
Proof. intros A R w w' E H a ss i r X N. rewrite <- E. eauto. Qed.
Lemma we_follow : forall A B (R : prod A) (K : A -> prod B) w1 w, weighs R w1 -> (forall a, weighs (K a) (fun b => w b - w1 a)) ->
  weighs (follow R K) w.
Proof.
  intros A B R K w1 w H1 H2 b ss i r (a & s1 & s2 & m & X & Y & ->) N. destruct (H1 _ _ _ _ X N) as [E1 N1].
  destruct (H2 _ _ _ _ _ Y N1) as [E2 N2]. split; auto. rewrite inline_app. lia.
Qed.
Lemma we_empty : forall A (a : A) w, w a = 0 -> weighs (empty a) w.
Proof. intros A a w H b ss i r (-> & -> & ->) N. split; auto. rewrite H. unfold inlineBraces. cbn. lia. Qed.
Lemma we_either : forall A (R1 R2 : prod A) w, weighs R1 w -> weighs R2 w -> weighs (either R1 R2) w.
Proof. intros A R1 R2 w H1 H2 a ss i r [X|X] N; eauto. Qed.
Lemma we_star : forall A (R : prod A) w, weighs R w -> weighs (star R) (fun l => total (map w l)).
Proof.
  intros A R w H l ss i r X. induction X as [i|a l s1 s2 i m r X Y IH]; intros N.
  - split; auto.
  - destruct (H _ _ _ _ X N) as [E1 N1]. destruct (IH N1) as [E2 N2]. split; auto. rewrite inline_app. cbn [map total fold_right].
    unfold total in *. lia.
Qed.
Lemma we_maybe : forall A (R : prod A) w, weighs R w -> weighs (maybe R) (fun o => match o with Some a => w a | None => 0 end).
Proof. intros A R w H [a|] ss i r X N; [eapply H; eauto|]. destruct X as [-> ->]. split; auto. Qed.
Lemma we_as : forall A B (f : A -> B) (R : prod A) w1 w, weighs R w1 -> (forall a, w (f a) = w1 a) -> weighs (as_ f R) w.
Proof. intros A B f R w1 w H E. eapply we_follow; [exact H|]. intros a. apply we_empty. rewrite E. lia. Qed.
Lemma we_such : forall A (q : A -> Prop) (R : prod A) w, weighs R w -> weighs (such q R) w.
Proof. intros A q R w H a ss i r [X _] N. eauto. Qed.
Lemma we_declare : forall (R : prod struct), weighs R structBraces -> weighs (declare R) (fun _ => 0).
Proof.
  intros R H a ss i r (inner & X & ->) N. destruct (H _ _ _ _ X N) as [E N1]. split; auto. rewrite inline_app.
  unfold inlineBraces at 2. cbn. lia.
Qed.
Lemma we_tok : forall w n, braces (points w) = n -> weighs (tok w) (fun _ => n).
Proof.
  intros w n H u ss i r [-> ->] N. rewrite braces_app, H. split; [unfold inlineBraces; cbn; lia|]. intros X. apply N. apply in_or_app. auto.
Qed.
Ltac tokw := lazymatch goal with |- weighs (tok ?w) _ =>
  let n := eval vm_compute in (braces (points w)) in apply (we_tok w n); reflexivity end.
Lemma we_blank : forall i r, blank i r -> ~ In 47 i -> braces i = braces r /\ ~ In 47 r.
Proof.
  intros i r B N. destruct B as [c r H | body r H | body r H H'].
  - split; [|intros X; apply N; right; auto]. change (c :: r) with ([c] ++ r). rewrite braces_app.
    rewrite braces_none; [lia|]. cbn in *. lia.
  - exfalso. apply N. left. reflexivity.
  - exfalso. apply N. left. reflexivity.
Qed.
Lemma we_blanks : forall i r, blanks i r -> ~ In 47 i -> braces i = braces r /\ ~ In 47 r.
Proof. intros i r B. induction B as [|i m r B Bs IH]; intros N; auto. destruct (we_blank _ _ B N). destruct IH; auto. split; congruence. Qed.
Lemma we_gap : weighs gap (fun _ => 0).
Proof. intros u ss i r [-> B] N. destruct (we_blanks _ _ B N). split; auto. Qed.
Lemma we_gap1 : weighs gap1 (fun _ => 0).
Proof. intros u ss i r (-> & m & B & Bs) N. apply (we_gap tt []); auto. split; auto. eapply blanks_more; eauto. Qed.
Lemma class_none : forall (class : Z -> bool) w, class 123 = false -> forallb class w = true -> ~ In 123 w.
Proof. intros class w N F X. rewrite forallb_forall in F. rewrite (F _ X) in N. discriminate. Qed.
Lemma we_prefix : forall k r, ~ In 123 k -> ~ In 47 (k ++ r) -> braces (k ++ r) = braces r /\ ~ In 47 r.
Proof. intros k r H N. rewrite braces_app, (braces_none k H). split; [lia|]. intros X. apply N, in_or_app. auto. Qed.
Lemma we_word : forall first later, first 123 = false -> later 123 = false -> weighs (word first later) (fun _ => 0).
Proof.
  intros first later F1 F2 n ss i r (-> & c & cs & F & Fs & _ & -> & _) N. apply (we_prefix (c :: cs)) in N; [destruct N; split; auto|].
  intros [->|X]; [congruence|]. exact (class_none _ _ F2 Fs X).
Qed.
Lemma we_Identifier : weighs Identifier (fun _ => 0). Proof. apply we_word; reflexivity. Qed.
Lemma we_ConstIdentifier : weighs ConstIdentifier (fun _ => 0). Proof. apply we_word; reflexivity. Qed.
Lemma we_Literal : weighs Literal (fun _ => 0).
Proof.
  assert (P : forall k r, ~ In 123 k -> ~ In 47 (k ++ r) -> braces (k ++ r) = 0 + inlineBraces [] + braces r /\ ~ In 47 r).
  { intros k r H N. destruct (we_prefix k r H N). split; auto. }
  intros v ss i r (-> & _ & [(ds & m & -> & (Nn & F & _ & ->) & _)|[(ds & m & -> & (Nn & F & _ & ->) & _)|[(ds & Hd & (Nn & F & _ & ->) & _)|(-> & _)]]]) N.
  - rewrite app_assoc in *. apply P; auto. intros X. apply in_app_or in X. destruct X as [X|X]; [cbn in X; lia|].
    exact (class_none digit16 _ eq_refl F X).
  - rewrite app_assoc in *. apply P; auto. intros X. apply in_app_or in X. destruct X as [X|X]; [cbn in X; lia|].
    exact (class_none digit8 _ eq_refl F X).
  - apply P; auto. exact (class_none digit10 _ eq_refl F).
  - apply P; auto. cbn. lia.
Qed.

Lemma we_listOf : forall A (R : prod A), weighs R (fun _ => 0) -> weighs (listOf R) (fun _ => 0).
Proof.
  intros A R H. unfold listOf. eapply we_follow; [exact H|]. intros a. cbn beta.
  assert (Z : forall l : list A, total (map (fun _ => 0) l) = 0) by (induction l; cbn; auto).
  eapply we_follow with (w1 := fun _ => 0).
  - eapply we_ext; [|apply we_star with (w := fun _ => 0)]. 2: { do 3 (eapply we_follow; [first [apply we_gap|tokw]|intros; cbn beta]).
      eapply we_ext; [|exact H]. intros; cbn; reflexivity. }
    intros l. cbn. apply Z.
  - intros. apply we_empty. reflexivity.
Qed.

Lemma we_ended : forall A (R : prod A) w, weighs R w -> weighs (ended R) w.
Proof.
  intros A R w H. unfold ended. eapply we_follow; [apply we_gap|intros; cbn beta]. eapply we_follow; [exact H|intros; cbn beta].
  eapply we_follow; [apply we_gap|intros; cbn beta]. eapply we_follow; [tokw|intros; cbn beta].
  apply we_empty. cbn beta. lia.
Qed.
Ltac we := lazymatch goal with
  | |- weighs (follow _ _) _ => eapply we_follow; [we|cbn beta; intros; we]
  | |- weighs (either _ _) _ => apply we_either; [we|we]
  | |- weighs (empty _) _ => apply we_empty; try solve [cbn; lia]
  | |- weighs (star _) _ => eapply we_star; we
  | |- weighs (maybe _) _ => eapply we_maybe; we
  | |- weighs (as_ _ _) _ => eapply we_as; [we|cbn beta; intros; try solve [cbn; lia]]
  | |- weighs (such _ _) _ => eapply we_such; we
  | |- weighs (declare _) _ => eapply we_declare; we
  | |- weighs (tok _) _ => tokw
  | |- weighs gap _ => apply we_gap
  | |- weighs gap1 _ => apply we_gap1
  | |- weighs Identifier _ => apply we_Identifier
  | |- weighs ConstIdentifier _ => apply we_ConstIdentifier
  | |- weighs Literal _ => apply we_Literal
  | |- weighs (listOf _) _ => first [apply we_listOf; solve [we] | eapply we_ext; [|apply we_listOf; solve [we]]; intros; cbn; lia]
  | |- weighs (ended _) _ => eapply we_ended; we
  | |- _ => solve [eauto] || (eapply we_ext; [|solve [eauto]]; intros; cbn; lia) || idtac
  end.
Lemma we_Int : weighs Int (fun _ => 0). Proof. unfold Int. we. Qed.
Lemma we_Ref : weighs Ref (fun _ => 0). Proof. unfold Ref. we. Qed.
#[local] Hint Resolve we_Int we_Ref : core.
Lemma we_Range : weighs Range (fun _ => 0). Proof. unfold Range. we. Qed.
#[local] Hint Resolve we_Range : core.
Lemma we_Constraint : weighs Constraint_ (fun _ => 0). Proof. unfold Constraint_. we. Qed.
Lemma we_IntType : weighs IntType (fun _ => 0). Proof. unfold IntType, Size. we. Qed.
Lemma we_Len : weighs Len (fun _ => 0). Proof. unfold Len. we. Qed.
Lemma we_StructName : weighs StructName (fun _ => 0). Proof. unfold StructName. we. Qed.
Lemma we_Contexts : weighs Contexts (fun _ => 0). Proof. unfold Contexts. we. Qed.
#[local] Hint Resolve we_Constraint we_IntType we_Len we_StructName we_Contexts : core.

Definition memberBraces (m : member) : Z := if isUnion m then 1 else 0.
Lemma unions_total : forall ms, unions ms = total (map memberBraces ms).
Proof.
  intros ms. unfold unions, memberBraces. induction ms as [|m ms IH]; auto. cbn [filter map]. unfold total in *. cbn [fold_right].
  destruct (isUnion m); cbn [length]; lia.
Qed.
Section Structs.
  Variable SD : prod struct.
  Hypothesis HSD : weighs SD structBraces.
  Lemma we_StructRef : weighs (StructRef SD) (fun _ => 0). Proof using HSD. unfold StructRef. we. Qed.
  Hint Resolve we_StructRef : core.
  Lemma we_ArrayBase : weighs (ArrayBase SD) (fun _ => 0). Proof using HSD. unfold ArrayBase. we. Qed.
  Hint Resolve we_ArrayBase : core.
  Lemma we_Remainder : weighs (Remainder SD) (fun _ => 0). Proof using HSD. unfold Remainder. we. Qed.
  Lemma we_Field : weighs (Field SD) (fun _ => 0).
  Proof using HSD. unfold Field, FixedArray, VarArray, IntField, String_, StructField. we; destruct a3; cbn; lia. Qed.
  Hint Resolve we_Remainder we_Field : core.
  Lemma zeros : forall A (l : list A), total (map (fun _ => 0) l) = 0.
  Proof using. induction l; cbn; auto. Qed.
  Lemma we_Extent : weighs (Extent SD) (fun _ => 0). Proof using HSD. unfold Extent. we. Qed.
  Lemma we_CaseLabel : weighs CaseLabel (fun _ => 0). Proof using. unfold CaseLabel. we. Qed.
  Hint Resolve we_Extent we_CaseLabel : core.
  Lemma we_Body : weighs (Body SD) (fun _ => 0).
  Proof using HSD.
    unfold Body, Fields. we.
    - rewrite zeros. destruct a0; cbn; lia.
  Qed.
  Hint Resolve we_Body : core.
  Lemma we_Case : weighs (Case SD) (fun _ => 0). Proof using HSD. unfold Case. we. Qed.
  Hint Resolve we_Case : core.
  Lemma we_with : weighs (tok "with" ~~ gap1 ~~ tok "length" ~~ gap1 ~~ Len) (fun _ => 0). Proof using. we. Qed.
  Lemma we_Union : weighs (Union SD) (fun _ => 1).
  Proof using HSD.
    unfold Union. do 8 (eapply we_follow; [we|cbn beta; intros]).
    eapply we_follow; [eapply we_maybe, we_with|cbn beta; intros]. we.
    match goal with |- context [match ?l with _ => _ end] => destruct l end; rewrite ?zeros; cbn; lia.
  Qed.
  Lemma field_plain : forall m ss i r, Field SD m ss i r -> memberBraces m = 0.
  Proof using.
    unfold Field, FixedArray, VarArray, IntField, String_, StructField. intros m ss i r H.
    repeat match goal with
    | H : either _ _ _ _ _ _ |- _ => destruct H as [H|H]
    | H : follow _ _ _ _ _ _ |- _ => destruct H as (? & ? & ? & ? & _ & H & _)
    | H : empty _ _ _ _ _ |- _ => destruct H as [-> _]
    end; reflexivity.
  Qed.
  Lemma remainder_plain : forall m ss i r, Remainder SD m ss i r -> memberBraces m = 0.
  Proof using.
    unfold Remainder. intros m ss i r H.
    repeat match goal with
    | H : follow _ _ _ _ _ _ |- _ => destruct H as (? & ? & ? & ? & _ & H & _)
    | H : empty _ _ _ _ _ |- _ => destruct H as [-> _]
    end; reflexivity.
  Qed.
  Lemma union_one : forall m ss i r, Union SD m ss i r -> memberBraces m = 1.
  Proof using.
    unfold Union. intros m ss i r H.
    repeat match goal with
    | H : follow _ _ _ _ _ _ |- _ => destruct H as (? & ? & ? & ? & _ & H & _)
    | H : empty _ _ _ _ _ |- _ => destruct H as [-> _]
    end; reflexivity.
  Qed.
  Lemma we_Member : weighs (Member SD) memberBraces.
  Proof using HSD.
    unfold Member. apply we_either; [apply we_either|].
    - intros m ss i r H N. rewrite (field_plain _ _ _ _ H). apply (we_Field _ _ _ _ H N).
    - unfold Position. we.
    - intros m ss i r H N. rewrite (union_one _ _ _ _ H). apply (we_Union _ _ _ _ H N).
  Qed.
  Lemma we_Ending : weighs (Ending SD) memberBraces.
  Proof using HSD.
    unfold Ending. apply we_either; [|we].
    intros m ss i r H N. rewrite (remainder_plain _ _ _ _ H). apply (we_Remainder _ _ _ _ H N).
  Qed.
  Hint Resolve we_Member we_Ending : core.
  Lemma we_Struct : weighs (Struct SD) structBraces.
  Proof using HSD.
    unfold Struct. we. unfold structBraces. cbn [smembers]. rewrite unions_total, map_app, total_app.
    match goal with |- context [match ?l with _ => _ end] => destruct l end; cbn [map total fold_right]; lia.
  Qed.
End Structs.
Lemma we_StructN : forall n, weighs (StructN n) structBraces.
Proof. induction n as [|n IH]; [intros a ss i r []|]. apply we_Struct. exact IH. Qed.
Lemma we_StructDecl : weighs StructDecl structBraces.
Proof. intros a ss i r [n H] N. eapply we_StructN; eauto. Qed.
#[local] Hint Resolve we_StructDecl : core.
Definition declBraces (d : declaration) : Z :=
  match d with Const_ _ => 0 | Context_ _ => 1 | Struct_ s => structBraces s | Pragma_ _ => 0 end.
Lemma we_ContextField : weighs ContextField (fun _ => 0). Proof. unfold ContextField. we. Qed.
#[local] Hint Resolve we_ContextField : core.
Lemma we_semi : weighs (maybe (gap ~~ tok ";")) (fun _ => 0).
Proof.
  intros [u|] ss i r H N; [|destruct H as [-> ->]; split; auto]. revert H N.
  apply (we_follow _ _ gap (fun _ => tok ";") (fun _ => 0) (fun _ => 0) we_gap). intros _. tokw.
Qed.
Ltac semi := lazymatch goal with
  | |- weighs (follow (maybe (follow gap _)) _) _ => eapply we_follow; [apply we_semi|cbn beta; intros; we]
  | |- weighs (follow _ _) _ => eapply we_follow; [we|cbn beta; intros; semi]
  end.
Lemma we_Decl : weighs Decl declBraces.
Proof.
  unfold Decl. eapply we_follow; [apply we_gap|cbn beta; intros]. repeat apply we_either.
  - unfold ConstDecl. we.
  - unfold ContextDecl. semi. rewrite zeros. cbn. lia.
  - unfold StructDef. semi.
  - unfold ExternDecl. we.
  - unfold PragmaDecl. we.
Qed.

Theorem denotes_braces : forall cs f, Forall scalar cs -> ~ In 47 cs -> denotes (utf8 cs) f -> braces cs = fileBraces f.
Proof.
  intros cs f S N (cs0 & ds & inline & S0 & Eu & (l & s1 & s2 & m & H & (u & s3 & s4 & k & [-> B] & (-> & -> & Em) & ->) & ->) & ->). subst k.
  assert (cs0 = cs) by (rewrite <- (runes_utf8 _ S0), <- (runes_utf8 _ S); congruence). subst cs0.
  destruct (we_star _ _ _ we_Decl _ _ _ _ H N) as [E N1]. destruct (we_blanks _ _ B N1) as [Em _].
  rewrite E, Em. change (braces []) with 0. rewrite !app_nil_r. unfold fileBraces, SyntaxSpec.fileOf. cbn [fcontexts fstructs].
  rewrite map_app, total_app. unfold inlineBraces. clear H E N1 B.
  assert (K : total (map declBraces l) = Z.of_nat (length (flat_map (fun d => match d with Context_ c => [c] | _ => [] end) l)) +
    total (map structBraces (flat_map (fun d => match d with Struct_ s => [s] | _ => [] end) l))).
  { induction l as [|d l IH]; auto. cbn [map flat_map]. rewrite app_length, map_app, total_app.
    change (total (declBraces d :: map declBraces l)) with (declBraces d + total (map declBraces l)). rewrite IH.
    destruct d; cbn [declBraces map length total fold_right]; lia. }
  rewrite K. lia.
Qed.
