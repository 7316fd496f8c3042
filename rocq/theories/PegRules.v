(** The rules of the grammar, one by one. *)
From Coq Require Import ZArith String Ascii List Bool Lia ZifyBool ZifyNat.
From Verif Require Import Base Ast PegModel PegGrammar PegEngine PegRunes PegDescent PegConsume PegRefine.
Import ListNotations.
Open Scope string_scope.
Open Scope list_scope.
Open Scope Z_scope.

Definition isV {A} (mk : A -> value) : A -> value -> Prop := fun a v => v = mk a.
Definition anyV {A} : A -> value -> Prop := fun _ _ => True.
Definition optV {A} (V : A -> value -> Prop) : option A -> value -> Prop :=
  fun o v => match o with Some a => V a v | None => v = VNil end.
Definition listV {A} (V : A -> value -> Prop) : list A -> value -> Prop :=
  fun l v => exists vs, v = VSlice vs /\ Forall2 V l vs.

Ltac known := unfold isV, optV, listV in *;
  repeat match goal with
  | H : exists _, _ |- _ => destruct H
  | H : _ /\ _ |- _ => destruct H
  | H : ?v = _ |- _ => is_var v; subst v
  end.

Create HintDb peg discriminated.
#[export] Hint Extern 1 (part _ (ELit _) (lit _) _) => (apply part_lit; reflexivity) : peg.
#[export] Hint Extern 1 (part _ (EClass _ _) (cls _ _) _) => (apply part_class; reflexivity) : peg.
#[export] Hint Resolve part_any : peg.
#[export] Hint Extern 2 (part _ (EOpt _) (opt _) _) => (apply part_opt) : peg.
#[export] Hint Extern 2 (part _ (EStar _) (many _) _) => (apply part_star; [solve [eats]|]) : peg.
#[export] Hint Extern 2 (part _ (ENot _) (notP _) _) => (eapply part_not) : peg.
#[export] Hint Extern 3 (body _ _ _ _) => (apply part_body) : peg.

Ltac peg := eauto 8 with peg.
Ltac step :=
  lazymatch goal with
  | |- seqs _ [] _ (ret _) _ => apply seqs_nil; intros
  | |- seqs _ (ELabel _ _ :: _) _ (andThen _ _) _ =>
      eapply seqs_label; [discriminate | solve [peg] | intros; known; cbv beta]
  | |- seqs _ (_ :: _) _ (andThen _ _) _ =>
      eapply seqs_part; [solve [peg] | intros; known; cbv beta]
  end.
Ltac done_ := intros; eexists; split; reflexivity.
Ltac steps_ := repeat step; try done_.

Lemma body_any : forall N A e (p : P A) V, body N e p V -> body N e p anyV.
Proof. intros N A e p V H. eapply body_conseq; [|exact H]. unfold anyV. auto. Qed.
Lemma part_any_ : forall N A e (p : P A) V, part N e p V -> part N e p anyV.
Proof.
  intros N A e p V H f s d R L. specialize (H f s d R L). destruct (p d); auto.
  destruct H as (v & s' & H1 & H2 & H3). exists v, s'. unfold anyV. auto.
Qed.

Lemma R_EOL : forall N, part N (ERule "EOL") eol anyV.
Proof.
  intros N. eapply part_rule; [reflexivity|]. apply part_body. unfold rEOL, eol.
  eapply part_any_. apply part_lit. reflexivity.
Qed.
#[export] Hint Resolve R_EOL : peg.

Lemma R_SourceChar : forall N, part N (ERule "SourceChar") any (fun _ v => exists t, v = VBytes t).
Proof. intros N. eapply part_rule; [reflexivity|]. peg. Qed.
Lemma R_Whitespace : forall N, part N (ERule "Whitespace") whitespace (fun _ v => exists t, v = VBytes t).
Proof. intros N. eapply part_rule; [reflexivity|]. apply part_body. unfold rWhitespace, whitespace. peg. Qed.
#[export] Hint Resolve R_SourceChar R_Whitespace : peg.

Lemma R_SingleLine : forall N, part N (ERule "SingleLineComment") singleLine anyV.
Proof.
  intros N. eapply part_rule; [reflexivity|]. unfold rSingleLineComment, singleLine.
  apply body_seq. step.
  eapply seqs_part.
  { apply part_star with (V := anyV); [eats|]. apply body_seq. step. eapply seqs_last; [peg|]. intros. exact I. }
  intros. step. exact I.
Qed.
Lemma R_MultiLine : forall N, part N (ERule "MultiLineComment") multiLine anyV.
Proof.
  intros N. eapply part_rule; [reflexivity|]. unfold rMultiLineComment, multiLine.
  apply body_seq. step.
  eapply seqs_part.
  { apply part_star with (V := anyV); [eats|]. apply body_seq. step. eapply seqs_last; [peg|]. intros. exact I. }
  intros. step. step. exact I.
Qed.
#[export] Hint Resolve R_SingleLine R_MultiLine : peg.
Lemma R_Comment : forall N, part N (ERule "Comment") comment anyV.
Proof.
  intros N. eapply part_rule; [reflexivity|]. unfold rComment, comment.
  apply part_body, part_choice. apply alts_or; [peg|]. apply alts_one; peg.
Qed.
#[export] Hint Resolve R_Comment : peg.
Lemma R_Skip : forall N, part N (ERule "Skip") skip1 anyV.
Proof.
  intros N. eapply part_rule; [reflexivity|]. unfold rSkip, skip1.
  apply part_body, part_choice. apply alts_or; [|apply alts_or; [peg|apply alts_one; peg]].
  eapply body_map with (h := fun _ => tt); [|peg]. intros. exact I.
Qed.
#[export] Hint Resolve R_Skip : peg.
Lemma R_sk : forall N, part N (ERule "_") sk anyV.
Proof.
  intros N. eapply part_rule; [reflexivity|]. unfold r_, sk, void.
  apply part_body. eapply part_map with (h := fun _ => tt); [|peg]. intros. exact I.
Qed.
Lemma R_sk1 : forall N, part N (ERule "__") sk1 anyV.
Proof.
  intros N. eapply part_rule; [reflexivity|]. unfold r__, sk1.
  apply part_body. eapply part_any_. eapply part_plus; [eats|peg].
Qed.
#[export] Hint Resolve R_sk R_sk1 : peg.

(** ** Names and numbers *)
Lemma part_seq_text : forall N chars ranges chars' ranges',
  plainClass chars ranges = true -> plainClass chars' ranges' = true ->
  body N (ESeq [EClass chars ranges; EStar (EClass chars' ranges')])
         (cls chars ranges ;;; many (cls chars' ranges') ;;; ret tt) anyV.
Proof.
  intros. apply body_seq. eapply seqs_part; [apply part_class; auto|]. intros.
  eapply seqs_part; [apply part_star; [eats|apply part_body, part_class; auto]|]. intros.
  apply seqs_nil. intros. exact I.
Qed.

Lemma ascii_name : forall chars ranges chars' ranges',
  forallb (fun c => inR 0 127 c) chars = true ->
  forallb (fun r => (0 <=? fst r) && (snd r <=? 127)) ranges = true ->
  forallb (fun c => inR 0 127 c) chars' = true ->
  forallb (fun r => (0 <=? fst r) && (snd r <=? 127)) ranges' = true ->
  eatsAscii (cls chars ranges ;;; many (cls chars' ranges') ;;; ret tt).
Proof.
  intros. apply ascii_then; [apply ascii_cls; auto|]. intros.
  apply ascii_then; [apply ascii_many, ascii_cls; auto|]. intros. apply ascii_ret.
Qed.

Lemma R_Identifier : forall N, part N (ERule "Identifier") ident (isV VString).
Proof.
  intros N. eapply part_rule; [reflexivity|]. unfold rIdentifier, ident.
  eapply body_map with (V := fun cs v => v = VString (nameOf cs)).
  { intros. subst. reflexivity. }
  eapply body_text.
  - apply part_seq_text; reflexivity.
  - apply ascii_name; reflexivity.
  - reflexivity.
Qed.
Lemma R_ConstIdentifier : forall N, part N (ERule "ConstIdentifier") cident (isV VString).
Proof.
  intros N. eapply part_rule; [reflexivity|]. unfold rConstIdentifier, cident.
  eapply body_map with (V := fun cs v => v = VString (nameOf cs)).
  { intros. subst. reflexivity. }
  eapply body_text.
  - apply part_seq_text; reflexivity.
  - apply ascii_name; reflexivity.
  - reflexivity.
Qed.
#[export] Hint Resolve R_Identifier R_ConstIdentifier : peg.

Lemma R_Decimal : forall N, part N (ERule "DecimalLiteral") decimal anyV.
Proof.
  intros N. eapply part_rule; [reflexivity|]. unfold rDecimalLiteral, decimal, some1.
  apply part_body. eapply part_any_. eapply part_plus; [eats|peg].
Qed.
Lemma R_Hex : forall N, part N (ERule "HexLiteral") hex anyV.
Proof.
  intros N. eapply part_rule; [reflexivity|]. unfold rHexLiteral, hex, some1.
  apply body_seq. step. eapply seqs_part; [eapply part_plus; [eats|peg]|].
  intros. step. exact I.
Qed.
Lemma R_Octal : forall N, part N (ERule "OctalLiteral") octal anyV.
Proof.
  intros N. eapply part_rule; [reflexivity|]. unfold rOctalLiteral, octal, some1.
  apply body_seq. step. eapply seqs_part; [eapply part_plus; [eats|peg]|].
  intros. step. exact I.
Qed.
#[export] Hint Resolve R_Decimal R_Hex R_Octal : peg.

Lemma ascii_some1 : forall A (p : P A), eatsAscii p -> eatsAscii (some1 p).
Proof.
  intros. apply ascii_then; auto. intros. apply ascii_then; [apply ascii_many; auto|].
  intros. apply ascii_ret.
Qed.
Lemma ascii_number : eatsAscii (hex <|> octal <|> decimal).
Proof.
  repeat apply ascii_or.
  - apply ascii_then; [apply ascii_lit; reflexivity|]. intros. apply ascii_then; [|intros; apply ascii_ret].
    apply ascii_some1, ascii_cls; reflexivity.
  - apply ascii_then; [apply ascii_lit; reflexivity|]. intros. apply ascii_then; [|intros; apply ascii_ret].
    apply ascii_some1, ascii_cls; reflexivity.
  - apply ascii_some1, ascii_cls; reflexivity.
Qed.

Lemma R_IntLiteral : forall N, part N (ERule "IntLiteral") intLit (isV VInt64).
Proof.
  intros N. eapply part_rule; [reflexivity|]. unfold rIntLiteral, intLit.
  eapply body_number with (mk := fun t => (VInt64 (fst (ParseInt (fromCodes t))), snd (ParseInt (fromCodes t))))
                          (h := fun t => fst (ParseInt (fromCodes t))).
  - apply part_body, part_choice. apply alts_or; [peg|]. apply alts_or; [peg|]. apply alts_one; peg.
  - apply ascii_number.
  - intros. unfold onIntLiteral1. destruct (ParseInt _). reflexivity.
  - intros. reflexivity.
Qed.
#[export] Hint Resolve R_IntLiteral : peg.

Lemma R_IntegerConstRef : forall N,
  part N (ERule "IntegerConstRef") (n <-- cident ;; ret (IConst n)) (isV VInteger).
Proof.
  intros N. eapply part_rule; [reflexivity|]. unfold rIntegerConstRef.
  eapply body_act_label; [discriminate|peg|]. intros; known. eexists. split; reflexivity.
Qed.
Lemma R_IntegerLiteral : forall N,
  part N (ERule "IntegerLiteral") (n <-- intLit ;; ret (ILit n)) (isV VInteger).
Proof.
  intros N. eapply part_rule; [reflexivity|]. unfold rIntegerLiteral.
  eapply body_act_label; [discriminate|peg|]. intros; known. eexists. split; reflexivity.
Qed.
#[export] Hint Resolve R_IntegerConstRef R_IntegerLiteral : peg.
Lemma R_Integer : forall N, part N (ERule "Integer") integerP (isV VInteger).
Proof.
  intros N. eapply part_rule; [reflexivity|]. unfold rInteger, integerP.
  apply body_pass; [discriminate|]. apply part_body, part_choice.
  apply alts_or; [peg|]. apply alts_one; peg.
Qed.
#[export] Hint Resolve R_Integer : peg.

Lemma R_IDRef : forall N, part N (ERule "IDRef") idrefP (isV VRef).
Proof.
  intros N. eapply part_rule; [reflexivity|]. unfold rIDRef, idrefP.
  apply body_act.
  eapply seqs_label; [discriminate| |].
  - apply part_body, part_opt. apply body_seq with (V := fun x v => v = VSlice [VString x; VBytes (textOf ".")]).
    repeat step. reflexivity.
  - intros o v H. destruct o; known; steps_.
Qed.
#[export] Hint Resolve R_IDRef : peg.

(** [sk ;;; lit "," ;;; sk ;;; p] has the value of [p] at index 3. *)
Definition fourth {A} (V : A -> value -> Prop) : A -> value -> Prop :=
  fun a v => exists x y z w, v = VSlice [x; y; z; w] /\ V a w.
Lemma four : forall N A x e (p : P A) V, asciiText (textOf x) = true -> part N e p V ->
  body N (ESeq [ERule "_"; ELit x; ERule "_"; e]) (sk ;;; lit x ;;; sk ;;; p) (fourth V).
Proof.
  intros N A x e p V Hx Hp. apply body_seq. step.
  eapply seqs_part; [apply part_lit; auto|]. intros; known. step.
  eapply seqs_last; [eauto|]. intros. unfold fourth. eauto 8.
Qed.

Lemma mapM_fourth : forall A (V : A -> value -> Prop) (h : value -> outcome A),
  (forall a v, V a v -> h v = Ok a) ->
  forall l vs, Forall2 (fourth V) l vs -> mapM (fun v => x <- PegGrammar.part 3 v ;; h x) vs = Ok l.
Proof.
  intros A V h Hh. induction 1 as [|a v l vs Ha F IH]; cbn [mapM]; auto.
  destruct Ha as (x & y & z & w & -> & Hv). cbn. rewrite (Hh _ _ Hv). cbn. rewrite IH. reflexivity.
Qed.
Lemma mapM_all : forall A (V : A -> value -> Prop) (h : value -> outcome A),
  (forall a v, V a v -> h v = Ok a) ->
  forall l vs, Forall2 V l vs -> mapM h vs = Ok l.
Proof.
  intros A V h Hh. induction 1 as [|a v l vs Ha F IH]; cbn [mapM]; auto.
  rewrite (Hh _ _ Ha). cbn. rewrite IH. reflexivity.
Qed.

Lemma R_IdentifierList : forall N, part N (ERule "IdentifierList") identList (isV VStrings).
Proof.
  intros N. eapply part_rule; [reflexivity|]. unfold rIdentifierList, identList.
  apply body_act. step.
  eapply seqs_label; [discriminate| |].
  - apply part_body, part_star; [eats|]. unfold commaThen. apply four; [reflexivity|peg].
  - intros; known. step. intros. unfold onIdentifierList1.
    cbn [label ainsert alookup String.eqb Ascii.eqb Bool.eqb asString bind asSlice].
    rewrite (mapM_fourth _ (isV VString) asString ltac:(intros; known; reflexivity) _ _ H0).
    eexists; split; reflexivity.
Qed.
#[export] Hint Resolve R_IdentifierList : peg.

Ltac look := cbn [label ainsert alookup String.eqb Ascii.eqb Bool.eqb bind asSlice asString asMember asMembers
  asField asIntType asBase asStructRef asStruct asInteger asIntList asRange asRef asLength asCase asText
  isNil ifSet mapM].

Definition optFourth (o : option integer) (v : value) : Prop := optV (fourth (isV VInteger)) o v.
Lemma R_IntListMember : forall N, part N (ERule "IntListMember") rangeP (isV VRange).
Proof.
  intros N. eapply part_rule; [reflexivity|]. unfold rIntListMember, rangeP.
  apply body_act. step.
  eapply seqs_label; [discriminate| |].
  - apply part_body, part_opt. apply four with (V := isV VInteger); [reflexivity|peg].
  - intros o v H. destruct o; unfold fourth in H; known; steps_.
Qed.
#[export] Hint Resolve R_IntListMember : peg.
Lemma R_IntList : forall N, part N (ERule "IntList") intListP (isV VIntList).
Proof.
  intros N. eapply part_rule; [reflexivity|]. unfold rIntList, intListP.
  apply body_act. step.
  eapply seqs_label; [discriminate| |].
  - apply part_body, part_star; [eats|]. unfold commaThen. apply four; [reflexivity|peg].
  - intros; known. step. intros. unfold onIntList1. look.
    rewrite (mapM_fourth _ (isV VRange) asRange ltac:(intros; known; reflexivity) _ _ H0).
    eexists; split; reflexivity.
Qed.
#[export] Hint Resolve R_IntList : peg.
Lemma R_IntConstraint : forall N, part N (ERule "IntConstraint") constraintP (isV VIntList).
Proof.
  intros N. eapply part_rule; [reflexivity|]. unfold rIntConstraint, constraintP.
  apply body_act. steps_.
Qed.
#[export] Hint Resolve R_IntConstraint : peg.

Definition sizeV (a : Z) (v : value) : Prop := exists t, v = VBytes t /\ digitsLoop 10 0 t = (a, None).
Lemma body_size : forall N x a, asciiText (textOf x) = true -> digitsLoop 10 0 (textOf x) = (a, None) ->
  body N (ELit x) (lit x ;;; ret a) sizeV.
Proof.
  intros N x a Hx Ha. eapply body_map with (h := fun _ => a); [|apply part_body, part_lit; auto].
  intros. subst. exists (textOf x). auto.
Qed.
Lemma R_IntType : forall N, part N (ERule "IntType") intTypeP (fun a v => v = VType (TInt a None)).
Proof.
  intros N. eapply part_rule; [reflexivity|]. unfold rIntType, intTypeP.
  apply body_act. step.
  eapply seqs_last_label with (V := sizeV); [discriminate| |].
  - unfold sizeP. apply part_body, part_choice.
    apply alts_or; [apply body_size; reflexivity|].
    apply alts_or; [apply body_size; reflexivity|].
    apply alts_or; [apply body_size; reflexivity|].
    apply alts_one; apply body_size; reflexivity.
  - intros a0 v0 d (t & -> & E) t0. eexists. unfold onIntType1. look. rewrite E. split; reflexivity.
Qed.
#[export] Hint Resolve R_IntType : peg.

Lemma R_CharType : forall N, part N (ERule "CharType") (lit "char" ;;; ret TChar) (isV VType).
Proof.
  intros N. eapply part_rule; [reflexivity|]. unfold rCharType.
  eapply body_act_plain with (h := fun _ => TChar); [peg|]. intros. eexists; split; reflexivity.
Qed.
#[export] Hint Resolve R_CharType : peg.

Lemma R_Leftover : forall N, part N (ERule "Leftover") leftoverP (isV VLeftover).
Proof.
  intros N. eapply part_rule; [reflexivity|]. unfold rLeftover, leftoverP.
  apply body_act. step. eapply seqs_last_label; [discriminate|peg|].
  intros; known. eexists; split; reflexivity.
Qed.
#[export] Hint Resolve R_Leftover : peg.
Definition lengthV (l : lconstraint) : value :=
  match l with LRef r => VRef r | LLeftover i => VLeftover i end.
Lemma R_LengthConstraint : forall N, part N (ERule "LengthConstraint") lengthP (isV lengthV).
Proof.
  intros N. eapply part_rule; [reflexivity|]. unfold rLengthConstraint, lengthP.
  apply body_pass; [discriminate|]. apply part_body, part_choice. apply alts_or.
  - eapply body_map with (h := LLeftover); [|peg]. intros; known. reflexivity.
  - apply alts_one. eapply body_map with (h := LRef); [|peg]. intros; known. reflexivity.
Qed.
#[export] Hint Resolve R_LengthConstraint : peg.
Lemma asLength_V : forall l, asLength (lengthV l) = Ok l.
Proof. intros []; reflexivity. Qed.

Lemma R_StructIdentifier : forall N, part N (ERule "StructIdentifier") structIdent (isV VString).
Proof.
  intros N. eapply part_rule; [reflexivity|]. unfold rStructIdentifier, structIdent.
  apply body_act. step. step. eapply seqs_last_label; [discriminate|peg|].
  intros; known. eexists; split; reflexivity.
Qed.
#[export] Hint Resolve R_StructIdentifier : peg.
Lemma R_ContextRefs : forall N, part N (ERule "ContextRefs") contextRefs (isV VStrings).
Proof.
  intros N. eapply part_rule; [reflexivity|]. unfold rContextRefs, contextRefs.
  apply body_act. step. step. step. step. eapply seqs_last_label; [discriminate|peg|].
  intros; known. eexists; split; reflexivity.
Qed.
#[export] Hint Resolve R_ContextRefs : peg.

(** The optional context list of a struct. *)
Definition contextsV (l : list string) (v : value) : Prop :=
  (l = [] /\ v = VNil) \/ (exists x, v = VSlice [x; VStrings l]).
Lemma P_contexts : forall N,
  part N (EOpt (ESeq [ERule "__"; ERule "ContextRefs"])) optContexts contextsV.
Proof.
  intros N. unfold optContexts.
  eapply part_map with (h := fun c => match c with Some l => l | None => [] end).
  2: { apply part_opt with (V := fun l v => exists x, v = VSlice [x; VStrings l]). apply body_seq. step.
       eapply seqs_last; [peg|]. intros; known. eauto. }
  intros o v H. unfold contextsV. destruct o; known; eauto.
Qed.
Lemma contexts_get : forall l v, contextsV l v ->
  ifSet v [] (fun c => x <- PegGrammar.part 1 c ;; asStrings x) = Ok l.
Proof. intros l v [[-> ->] | [x ->]]; reflexivity. Qed.

(** ** Members *)
Section Members.
  Variable N : nat.
  Variable sd : P struct.
  Hypothesis Hsd : part N (ERule "StructDecl") sd (isV VStruct).
  Hypothesis Esd : eatsSome sd.
  Hint Resolve Hsd Esd : peg.
  Hint Resolve Esd : eats.

  Lemma R_StructRef : part N (ERule "StructRef") (structRef sd) (isV VType).
  Proof.
    eapply part_rule; [reflexivity|]. unfold rStructRef, structRef.
    apply part_body, part_choice. apply alts_or.
    - apply body_act. step. apply seqs_state; [reflexivity|]. steps_.
    - apply alts_one. eapply body_act_label with (h := TStruct); [discriminate|peg|].
      intros; known. eexists; split; reflexivity.
  Qed.
  Hint Resolve R_StructRef : peg.

  Lemma R_ArrayBase : part N (ERule "ArrayBase") (arrayBase sd) (isV VType).
  Proof.
    eapply part_rule; [reflexivity|]. unfold rArrayBase, arrayBase.
    apply body_pass; [discriminate|]. apply part_body, part_choice. apply alts_or.
    - eapply body_map with (h := fun sz => TInt sz None); [|peg]. intros; known. reflexivity.
    - apply alts_or; [peg|]. apply alts_one; peg.
  Qed.
  Hint Resolve R_ArrayBase : peg.

  Lemma R_SMFixedArray : part N (ERule "SMFixedArray") (fixedArray sd) (isV VMember).
  Proof.
    eapply part_rule; [reflexivity|]. unfold rSMFixedArray, fixedArray. apply body_act. steps_.
  Qed.
  Lemma R_SMVarArray : part N (ERule "SMVarArray") (varArray sd) (isV VMember).
  Proof.
    eapply part_rule; [reflexivity|]. unfold rSMVarArray, varArray. apply body_act. repeat step.
    unfold onSMVarArray1. look. rewrite asLength_V. eexists; split; reflexivity.
  Qed.
  Lemma R_SMRemainder : part N (ERule "SMRemainder") (remainder sd) (isV VMember).
  Proof.
    eapply part_rule; [reflexivity|]. unfold rSMRemainder, remainder. apply body_act. steps_.
  Qed.
  Hint Resolve R_SMFixedArray R_SMVarArray R_SMRemainder : peg.
  Lemma R_SMArray : part N (ERule "SMArray") (arrayP sd) (isV VMember).
  Proof.
    eapply part_rule; [reflexivity|]. unfold rSMArray, arrayP.
    apply body_pass; [discriminate|]. apply part_body, part_choice. apply alts_or; [peg|].
    apply alts_one; peg.
  Qed.
  Lemma R_SMInteger : part N (ERule "SMInteger") smInteger (isV VMember).
  Proof.
    eapply part_rule; [reflexivity|]. unfold rSMInteger, smInteger. apply body_act.
    step. step. step. step. eapply seqs_label; [discriminate|apply part_body, part_opt; peg|].
    intros o w Hw. destruct o; known; steps_.
  Qed.
  Lemma R_SMPosition : part N (ERule "SMPosition") smPosition (isV VMember).
  Proof. eapply part_rule; [reflexivity|]. unfold rSMPosition, smPosition. apply body_act. steps_. Qed.
  Lemma R_SMString : part N (ERule "SMString") smString (isV VMember).
  Proof. eapply part_rule; [reflexivity|]. unfold rSMString, smString. apply body_act. steps_. Qed.
  (** Struct members have a struct reference as type. *)
  Definition refV (t : type) (v : value) : Prop := v = VType t /\ exists n, t = TStruct n.
  Lemma structRef_type : forall d t d', structRef sd d = Done t d' -> exists n, t = TStruct n.
  Proof.
    intros d t d'. unfold structRef, orElse, andThen, linger, ret. destruct (sd d).
    - destruct (structIdent _); [discriminate|]. intros E; inversion E; eauto.
    - intros E; inversion E; eauto.
  Qed.
  Lemma R_StructRef_ref : part N (ERule "StructRef") (structRef sd) refV.
  Proof.
    intros f s d R L. pose proof (R_StructRef f s d R L) as H. destruct (structRef sd d) eqn:E; auto.
    destruct H as (v & s' & H1 & H2 & H3). exists v, s'. unfold refV. split; [|split; [|split]]; auto.
    eapply structRef_type; eauto.
  Qed.
  Lemma R_SMStruct : part N (ERule "SMStruct") (smStruct sd) (isV VMember).
  Proof.
    eapply part_rule; [reflexivity|]. unfold rSMStruct, smStruct. apply body_act.
    eapply seqs_label; [discriminate|apply part_body, R_StructRef_ref|].
    intros a v [-> [n ->]]. steps_.
  Qed.
  Hint Resolve R_SMArray R_SMInteger R_SMPosition R_SMString R_SMStruct : peg.

  Lemma R_ExtentSpec : part N (ERule "ExtentSpec") (extent sd) (isV VMember).
  Proof.
    eapply part_rule; [reflexivity|]. unfold rExtentSpec, extent.
    apply part_body, part_choice. apply alts_or; [|apply alts_one]; apply body_act; steps_.
  Qed.
  Lemma R_UnionField : part N (ERule "UnionField") (unionField sd) (isV VMember).
  Proof.
    eapply part_rule; [reflexivity|]. unfold rUnionField, unionField.
    apply body_act. step. eapply seqs_label; [discriminate| |].
    - apply part_body, part_choice. do 3 (apply alts_or; [peg|]). apply alts_one; peg.
    - intros; known. steps_.
  Qed.
  Hint Resolve R_ExtentSpec R_UnionField : peg.

  Lemma members_get : forall l vs, Forall2 (isV VMember) l vs -> mapM asMember vs = Ok l.
  Proof. apply mapM_all. intros; known. reflexivity. Qed.

  Lemma R_UnionFields : part N (ERule "UnionFields") (unionFields sd) (isV VMembers).
  Proof.
    eapply part_rule; [reflexivity|]. unfold rUnionFields, unionFields.
    apply body_act. eapply seqs_label; [discriminate|peg|]. intros l w (vs & -> & F). step.
    eapply seqs_label; [discriminate|peg|]. intros o w1 Hw.
    destruct o; known; step; unfold onUnionFields1; look;
      rewrite (members_get _ _ F); eexists; split; reflexivity.
  Qed.
  Hint Resolve R_UnionFields : peg.

  Definition bodyV (ms : list member) (v : value) : Prop := v = VMembers ms \/ (v = VNil /\ ms = []).
  Lemma R_UnionBody : part N (ERule "UnionBody") (unionBody sd) bodyV.
  Proof.
    eapply part_rule; [reflexivity|]. unfold rUnionBody, unionBody.
    apply part_body, part_choice. unfold bodyV. apply alts_or; [|apply alts_or; [|apply alts_or; [|apply alts_one]]].
    - apply body_act. repeat step. eexists; split; [reflexivity|auto].
    - apply body_act. repeat step. eexists; split; [reflexivity|auto].
    - apply body_act. repeat step. eexists; split; [reflexivity|auto].
    - apply body_pass; [discriminate|]. eapply body_conseq; [|peg]. intros; known. auto.
  Qed.
  Lemma R_UnionCase : part N (ERule "UnionCase") unionCase (optV (isV VIntList)).
  Proof.
    eapply part_rule; [reflexivity|]. unfold rUnionCase, unionCase.
    apply part_body, part_choice. apply alts_or; [|apply alts_one].
    - eapply body_act_label with (h := Some); [discriminate|peg|]. intros; known. eexists; split; reflexivity.
    - eapply body_act_plain with (h := fun _ => None); [peg|]. intros; known. eexists; split; reflexivity.
  Qed.
  Hint Resolve R_UnionBody R_UnionCase : peg.
  Lemma R_UnionMember : part N (ERule "UnionMember") (unionMember sd) (isV VCase).
  Proof.
    eapply part_rule; [reflexivity|]. unfold rUnionMember, unionMember.
    apply body_act. step. eapply seqs_label; [discriminate|peg|]. intros o w Hw.
    step. step. step. eapply seqs_label; [discriminate|peg|]. intros ms w1 Hb.
    destruct o; destruct Hb as [-> | [-> ->]]; known; steps_.
  Qed.
  Lemma R_UnionLength : part N (ERule "UnionLength") unionLength (isV lengthV).
  Proof.
    eapply part_rule; [reflexivity|]. unfold rUnionLength, unionLength.
    apply body_act. step. step. step. step. eapply seqs_last_label; [discriminate|peg|].
    intros; known. eexists; split; reflexivity.
  Qed.
  Hint Resolve R_UnionMember R_UnionLength : peg.
  Lemma cases_get : forall l vs, Forall2 (isV VCase) l vs -> mapM asCase vs = Ok l.
  Proof. apply mapM_all. intros; known. reflexivity. Qed.
  Lemma length_get : forall o v, optV (isV lengthV) o v ->
    ifSet v None (fun v => l <- asLength v ;; Ok (Some l)) = Ok o.
  Proof. intros [[]|] v H; known; reflexivity. Qed.

  Lemma R_SMUnion : part N (ERule "SMUnion") (smUnion sd) (isV VMember).
  Proof.
    eapply part_rule; [reflexivity|]. unfold rSMUnion, smUnion.
    apply body_act. do 8 step. eapply seqs_label; [discriminate|peg|]. intros o w Hw.
    do 3 step. eapply seqs_label; [discriminate|peg|]. intros l w1 (vs & -> & F).
    repeat step. unfold onSMUnion1. look.
    rewrite (cases_get _ _ F). look. rewrite (length_get _ _ Hw). eexists; split; reflexivity.
  Qed.
  Hint Resolve R_SMUnion : peg.

  Lemma R_StructMember : part N (ERule "StructMember") (structMember sd) (isV VMember).
  Proof.
    eapply part_rule; [reflexivity|]. unfold rStructMember, structMember.
    apply body_act. step. eapply seqs_label; [discriminate| |].
    - apply part_body, part_choice. do 5 (apply alts_or; [peg|]). apply alts_one; peg.
    - intros; known. steps_.
  Qed.
  Lemma R_StructEOS : part N (ERule "StructEOS") (lit "eos" ;;; ret MEOS) (isV VMember).
  Proof.
    eapply part_rule; [reflexivity|]. unfold rStructEOS.
    eapply body_act_plain with (h := fun _ => MEOS); [peg|]. intros. eexists; split; reflexivity.
  Qed.
  Hint Resolve R_StructEOS : peg.
  Lemma R_StructEnding : part N (ERule "StructEnding") (structEnding sd) (isV VMember).
  Proof.
    eapply part_rule; [reflexivity|]. unfold rStructEnding, structEnding.
    apply body_act. step. eapply seqs_label; [discriminate| |].
    - apply part_body, part_choice. apply alts_or; [peg|]. apply alts_one; peg.
    - intros; known. steps_.
  Qed.
  Hint Resolve R_StructMember R_StructEnding : peg.

  Lemma R_StructBody : part (S N) (ERule "StructDecl") (structBody sd) (isV VStruct).
  Proof.
    eapply part_rule; [reflexivity|]. unfold rStructDecl, structBody.
    apply body_act. eapply seqs_label_eats; [discriminate|eats|peg|].
    intros M n v EM. inversion EM; subst M. intros H; known.
    eapply seqs_label; [discriminate|apply part_body, P_contexts|]. intros c w1 H1x.
    step. step. eapply seqs_label; [discriminate|peg|]. intros l w2 (vs & -> & F). step.
    eapply seqs_label; [discriminate|peg|]. intros o w3 H3.
    destruct o; known; repeat step; unfold onStructDecl1; look;
      rewrite (members_get _ _ F); look;
      change (label "ctx" _) with w1;
      rewrite (contexts_get _ _ H1x); eexists; split; reflexivity.
  Qed.
End Members.

Lemma R_StructDecl0 : forall n, part 0 (ERule "StructDecl") (structDecl (S n)) (isV VStruct).
Proof.
  intros n. cbn [structDecl]. eapply part_rule; [reflexivity|]. unfold rStructDecl, structBody.
  apply body_act. eapply seqs_label_eats; [discriminate|eats|peg|]. intros M n0 v EM. discriminate.
Qed.
Lemma R_StructDecl : forall N n, (N < n)%nat -> part N (ERule "StructDecl") (structDecl n) (isV VStruct).
Proof.
  induction N as [|N IH]; intros n Hn; (destruct n as [|n]; [lia|]).
  - apply R_StructDecl0.
  - cbn [structDecl]. apply R_StructBody; [apply IH; lia|eats].
Qed.

(** ** Declarations *)
Definition declV (d : decl) : value :=
  match d with DConst c => VConst c | DCtx c => VCtx c | DStruct s => VStruct s | DPragma p => VPragma p end.

Lemma R_ConstDeclaration : forall N, part N (ERule "ConstDeclaration") constP (isV declV).
Proof.
  intros N. eapply part_rule; [reflexivity|]. unfold rConstDeclaration, constP. apply body_act. steps_.
Qed.
Lemma R_ContextMember : forall N, part N (ERule "ContextMember") ctxMember (fun p v => v = VMember (MField (fst p) (snd p))).
Proof.
  intros N. eapply part_rule; [reflexivity|]. unfold rContextMember, ctxMember. apply body_act. steps_.
Qed.
#[export] Hint Resolve R_ContextMember : peg.
Lemma R_ContextDeclaration : forall N, part N (ERule "ContextDeclaration") ctxP (isV declV).
Proof.
  intros N. eapply part_rule; [reflexivity|]. unfold rContextDeclaration, ctxP. apply body_act.
  do 6 step. eapply seqs_label; [discriminate|peg|]. intros l w1 (vs & -> & F).
  do 3 step. eapply seqs_part; [peg|]. intros. step. unfold onContextDeclaration1. look.
  rewrite (mapM_all _ (fun p v => v = VMember (MField (fst p) (snd p))) asField ltac:(intros [? ?] ? ->; reflexivity) _ _ F). eexists; split; reflexivity.
Qed.
Lemma R_StructDeclaration : forall N n, (N < n)%nat ->
  part N (ERule "StructDeclaration") (structP n) (isV declV).
Proof.
  intros N n Hn. pose proof (R_StructDecl N n Hn) as H.
  eapply part_rule; [reflexivity|]. unfold rStructDeclaration, structP. apply body_act.
  step. step. eapply seqs_part; [peg|]. intros. steps_.
Qed.
Lemma R_ExternDeclaration : forall N, part N (ERule "ExternDeclaration") externP (isV declV).
Proof.
  intros N. eapply part_rule; [reflexivity|]. unfold rExternDeclaration, externP. apply body_act.
  do 3 step. eapply seqs_label; [discriminate|apply part_body, P_contexts|]. intros c w1 H1x.
  repeat step. unfold onExternDeclaration1. look. rewrite (contexts_get _ _ H1x). eexists; split; reflexivity.
Qed.
Lemma R_PragmaDeclaration : forall N, part N (ERule "PragmaDeclaration") pragmaP (isV declV).
Proof.
  intros N. eapply part_rule; [reflexivity|]. unfold rPragmaDeclaration, pragmaP. apply body_act. steps_.
Qed.
#[export] Hint Resolve R_ConstDeclaration R_ContextDeclaration R_StructDeclaration R_ExternDeclaration
  R_PragmaDeclaration : peg.

Lemma R_Declaration : forall N n, (N < n)%nat -> part N (ERule "Declaration") (declP n) (isV declV).
Proof.
  intros N n Hn. eapply part_rule; [reflexivity|]. unfold rDeclaration, declP.
  apply body_act. step. eapply seqs_label; [discriminate| |].
  - apply part_body, part_choice. do 4 (apply alts_or; [peg|]). apply alts_one; peg.
  - intros; known. steps_.
Qed.

Lemma sortDecls_spec : forall vs ds f, Forall2 (isV declV) ds vs ->
  sortDecls vs f =
    (mkFile (fconstants f ++ fconstants (fileOf ds [])) (fcontexts f ++ fcontexts (fileOf ds []))
            (fstructs f ++ fstructs (fileOf ds [])) (fpragmas f ++ fpragmas (fileOf ds [])), None).
Proof.
  intros vs ds f F. revert f. induction F as [|d v ds vs Hd F IH]; intros f.
  - cbn. rewrite !app_nil_r. destruct f; reflexivity.
  - rewrite Hd. destruct d; cbn [declV sortDecls]; rewrite IH; cbn; rewrite ?app_nil_r, <- ?app_assoc; reflexivity.
Qed.

Lemma R_EOF : forall N, part N (ERule "EOF") (notP any) anyV.
Proof.
  intros N. eapply part_rule; [reflexivity|]. unfold rEOF. apply part_body. eapply part_any_.
  eapply part_not. apply part_body, part_any.
Qed.
#[export] Hint Resolve R_EOF : peg.

Lemma R_File : forall N n, (N < n)%nat -> part N (ERule "File") (fileP n) (isV VFile).
Proof.
  intros N n Hn. pose proof (R_Declaration N n Hn) as H.
  eapply part_rule; [reflexivity|]. unfold rFile, fileP. apply body_act. step.
  eapply seqs_label; [discriminate|peg|]. intros ds w1 (vs & -> & F). step. step.
  apply seqs_ling. intros d t. unfold onFile1. look.
  rewrite (sortDecls_spec (vs ++ map VStruct (dling d)) (ds ++ map DStruct (dling d))).
  - eexists. split; [reflexivity|]. unfold isV, fileOf, pick. cbn [fconstants fcontexts fstructs fpragmas app].
    rewrite !flat_map_app.
    assert (E : forall A (l : list struct) (h : struct -> list A),
      flat_map (fun d => match d with DStruct s => h s | _ => [] end) (map DStruct l) = flat_map h l).
    { intros A l h. induction l as [|s l IH]; cbn; auto. rewrite IH. reflexivity. }
    assert (E1 : forall A (l : list struct) (h : decl -> list A), (forall s, h (DStruct s) = []) ->
      flat_map h (map DStruct l) = []).
    { intros A l h Hh. induction l as [|s l IH]; cbn; auto. rewrite Hh, IH. reflexivity. }
    rewrite (E1 _ (dling d) (fun d => match d with DConst c => [c] | _ => [] end)) by reflexivity.
    rewrite (E1 _ (dling d) (fun d => match d with DCtx c => [c] | _ => [] end)) by reflexivity.
    rewrite (E1 _ (dling d) (fun d => match d with DPragma c => [c] | _ => [] end)) by reflexivity.
    rewrite (E _ (dling d) (fun s => [s])).
    replace (flat_map (fun s => [s]) (dling d)) with (dling d).
    2: { induction (dling d); cbn; congruence. }
    rewrite !app_nil_r. reflexivity.
  - apply Forall2_app; auto. induction (dling d); cbn; constructor; auto. reflexivity.
Qed.
