(** Nothing depends on the order in which the maps of the resolver are visited. *)
From Coq Require Import ZArith String List Bool.
From Verif Require Import Base Ast IntervalsModel InspectModel InspectSpec InspectProofs GoLang GenModel.
Import ListNotations.
Open Scope string_scope.
Open Scope list_scope.
Open Scope Z_scope.

(** * The resolver *)
Lemma same_refl : forall r, same_answers r r.
Proof. intros r. repeat split. Qed.
Lemma same_trans : forall a b c, same_answers a b -> same_answers b c -> same_answers a c.
Proof. intros a b c (A1 & A2 & A3) (B1 & B2 & B3). split; [|split]; intros n; congruence. Qed.
Lemma same_sym : forall a b, same_answers a b -> same_answers b a.
Proof. intros a b (A1 & A2 & A3). split; [|split]; intros n; congruence. Qed.

Lemma outcome_same : forall r r' f, same_answers r r' -> addfile_outcome r f = addfile_outcome r' f.
Proof.
  intros r r' f (A & B & C). unfold addfile_outcome, struct_phase, context_phase, const_phase.
  rewrite (forallb_ext_in _ (fun a => okStruct (Struct r (sname a)) a) (fun a => okStruct (Struct r' (sname a)) a)) by (intros; now rewrite A).
  rewrite (forallb_ext_in _ (fun a => okContext (Context r (cname a)) a) (fun a => okContext (Context r' (cname a)) a)) by (intros; now rewrite B).
  rewrite (forallb_ext_in _ (fun a => okConst (Constant r (fst a)) a) (fun a => okConst (Constant r' (fst a)) a)) by (intros; now rewrite C).
  reflexivity.
Qed.

(** Two outcomes of the same kind, with the same message. *)
Definition sameOut {A} (R : A -> A -> Prop) (x y : outcome A) : Prop :=
  match x, y with
  | Ok a, Ok b => R a b
  | Err e, Err e' => e = e'
  | Panic m, Panic m' => m = m'
  | OutOfFuel, OutOfFuel => True
  | _, _ => False
  end.

Lemma addFiles_same : forall fs os os' k r r', all_valid os -> all_valid os' -> same_answers r r' ->
  sameOut same_answers (addFiles os k r fs) (addFiles os' k r' fs).
Proof.
  induction fs as [|f fs IH]; intros os os' k r r' V V' S; cbn [addFiles]; [exact S|].
  destruct (AddFile_spec (os k) r f (V k)) as [E A]. destruct (AddFile_spec (os' k) r' f (V' k)) as [E' A'].
  rewrite <- (outcome_same _ _ f S) in E', A'.
  destruct (AddFile (os k) r f) as [r1 o1]. destruct (AddFile (os' k) r' f) as [r2 o2]. cbn [fst snd] in *. subst o1 o2.
  destruct (addfile_outcome r f) as [[]|e|m|] eqn:O; cbn; auto.
  apply IH; auto. destruct (A eq_refl) as (A1 & A2 & A3). destruct (A' eq_refl) as (B1 & B2 & B3). destruct S as (S1 & S2 & S3).
  split; [|split]; intros n; rewrite ?A1, ?A2, ?A3, ?B1, ?B2, ?B3, ?S1, ?S2, ?S3; reflexivity.
Qed.
Theorem resolver_same : forall os os' fs, all_valid os -> all_valid os' ->
  sameOut same_answers (NewResolverFiles os fs) (NewResolverFiles os' fs).
Proof. intros. apply addFiles_same; auto. apply same_refl. Qed.

(** * What asks the resolver *)
Lemma mapM_ext : forall {A B} (f g : A -> outcome B) l, (forall a, In a l -> f a = g a) -> mapM f l = mapM g l.
Proof.
  intros A B f g. induction l as [|a l IH]; intros H; cbn [mapM]; auto. rewrite H by now left. rewrite IH; auto. intros; apply H; now right.
Qed.
Lemma bind_ext : forall {A B} (x : outcome A) (f g : A -> outcome B), (forall a, f a = g a) -> bind x f = bind x g.
Proof. intros A B [a|e|m|] f g H; cbn; auto. Qed.

Section Ask.
Variables r r' : resolver.
Hypothesis S : same_answers r r'.

Lemma Struct_same : forall n, Struct r n = Struct r' n.
Proof. apply S. Qed.
Lemma Context_same : forall n, Context r n = Context r' n.
Proof. apply S. Qed.
Lemma Constant_same : forall n, Constant r n = Constant r' n.
Proof. apply S. Qed.
Lemma StructNonExtern_same : forall n, StructNonExtern r n = StructNonExtern r' n.
Proof. intros n. unfold StructNonExtern. now rewrite Struct_same. Qed.
Lemma Integer_same : forall i, Integer r i = Integer r' i.
Proof. intros [n|v]; cbn [Integer]; auto. now rewrite Constant_same. Qed.
Lemma rangeInterval_same : forall g, rangeInterval r g = rangeInterval r' g.
Proof.
  intros g. unfold rangeInterval. rewrite Integer_same. apply bind_ext. intros lo. destruct (rhigh g) as [h|]; auto. now rewrite Integer_same.
Qed.
Lemma Intervals_same : forall l, Intervals r l = Intervals r' l.
Proof. intros l. unfold Intervals. rewrite (mapM_ext _ (rangeInterval r')); auto. intros; apply rangeInterval_same. Qed.
Lemma IntType_same : forall f s, IntType r f s = IntType r' f s.
Proof. intros f s. unfold IntType. now rewrite Context_same. Qed.
Lemma branchLoop_same : forall cs d k, branchLoop r cs d k = branchLoop r' cs d k.
Proof.
  induction cs as [|c cs IH]; intros d k; cbn [branchLoop]; auto. destruct (ucase_list c) as [l|]; auto.
  rewrite Intervals_same. apply bind_ext. intros s. apply bind_ext. intros d'. now rewrite IH.
Qed.
Lemma NewBranches_same : forall s tag cs, NewBranches r s tag cs = NewBranches r' s tag cs.
Proof.
  intros s tag cs. unfold NewBranches. rewrite IntType_same. apply bind_ext. intros [sz c]. apply bind_ext. intros d0. now rewrite branchLoop_same.
Qed.

Section Gen.
Variable camel : string -> string.
Lemma integerOf_same : forall i, integerOf r i = integerOf r' i.
Proof. intros i. unfold integerOf. now rewrite Integer_same. Qed.
Lemma tipe_same : forall t, tipe camel r t = tipe camel r' t.
Proof.
  induction t as [sz cst| | | |n|b IH i|b IH len]; cbn [tipe]; auto; [rewrite integerOf_same|]; rewrite IH; auto.
Qed.
Lemma clauseOf_same : forall v g, clauseOf r v g = clauseOf r' v g.
Proof.
  intros v g. unfold clauseOf. rewrite integerOf_same. destruct (rhigh g) as [h|]; auto. rewrite (integerOf_same h). auto.
Qed.
Lemma conditional_same : forall v l, conditional r v l = conditional r' v l.
Proof. intros v l. unfold conditional. rewrite (mapM_ext _ (clauseOf r' v)); auto. intros; apply clauseOf_same. Qed.
Lemma parseIntType_same : forall lhs sz cst, parseIntType r lhs sz cst = parseIntType r' lhs sz cst.
Proof. intros lhs sz [l|]; unfold parseIntType; auto. now rewrite conditional_same. Qed.
Lemma constrained_same : forall rv c b, constrained camel r rv c b = constrained camel r' rv c b.
Proof. intros rv [f|i] b; unfold constrained; auto. now rewrite integerOf_same. Qed.
Lemma parseType_same : forall rv t lhs, parseType camel r rv lhs t = parseType camel r' rv lhs t.
Proof.
  intros rv. induction t as [sz cst| | | |n|b IH i|b IH len]; intros lhs; cbn [parseType]; auto.
  - apply parseIntType_same.
  - now rewrite Struct_same.
  - rewrite integerOf_same, IH. reflexivity.
  - rewrite tipe_same. destruct len as [[f|k]|]; apply bind_ext; intros g; rewrite IH; auto.
    apply bind_ext. intros body. apply constrained_same.
Qed.
Lemma parseMember_same : forall rv m, parseMember camel r rv m = parseMember camel r' rv m.
Proof.
  intros rv. induction m as [nm t|u tag len cs IH| | |] using member_ind'; cbn [parseMember]; auto.
  - now rewrite parseType_same.
  - match goal with |- bind ?X _ = bind ?Y _ => assert (E : X = Y) end.
    { induction IH as [|[l ms] cs F IH' IHc]; auto. cbn [ucase_members] in F.
      match goal with |- match l with Some l' => bind _ (fun c => bind ?X _) | None => _ end = match l with Some l2 => bind _ (fun c2 => bind ?Y _) | None => _ end =>
        assert (E : X = Y) end.
      { induction F as [|m ms Hm F IHf]; auto. rewrite Hm. apply bind_ext. intros s. now rewrite IHf. }
      destruct l as [l|].
      - rewrite conditional_same. apply bind_ext. intros c. rewrite E. apply bind_ext. intros b. now rewrite IHc.
      - rewrite E. apply bind_ext. intros b. now rewrite IHc. }
    rewrite E. apply bind_ext. intros cases. destruct len as [c|]; auto. now rewrite constrained_same.
Qed.
Lemma memberDecl_same : forall m, memberDecl camel r m = memberDecl camel r' m.
Proof.
  induction m as [nm t|u tag len cs IH| | |] using member_ind'; cbn [memberDecl]; auto.
  - now rewrite tipe_same.
  - induction IH as [|[l ms] cs F IH' IHc]; auto. cbn [ucase_members] in F.
    match goal with |- bind ?X _ = bind ?Y _ => assert (E : X = Y) end.
    { induction F as [|m ms Hm F IHf]; auto. destruct m; auto; rewrite Hm; apply bind_ext; intros a; now rewrite IHf. }
    rewrite E. apply bind_ext. intros d. now rewrite IHc.
Qed.
Lemma structureDecl_same : forall s, structureDecl camel r s = structureDecl camel r' s.
Proof.
  intros s. unfold structureDecl, structDecl, parseFunc.
  rewrite (mapM_ext (memberDecl camel r) (memberDecl camel r')) by (intros; apply memberDecl_same). apply bind_ext. intros d.
  f_equal. apply bind_ext. intros rv. rewrite (mapM_ext (parseMember camel r rv) (parseMember camel r' rv)); auto. intros; apply parseMember_same.
Qed.
Lemma contextDecl_same : forall c, contextDecl camel r c = contextDecl camel r' c.
Proof.
  intros c. unfold contextDecl. f_equal. apply mapM_ext. intros f _. now rewrite tipe_same.
Qed.
Lemma genProgram_same : forall fs, genProgram camel r fs = genProgram camel r' fs.
Proof.
  intros fs. unfold genProgram. rewrite (mapM_ext (contextDecl camel r) (contextDecl camel r')) by (intros; apply contextDecl_same).
  apply bind_ext. intros cs. rewrite (mapM_ext (structureDecl camel r) (structureDecl camel r')); auto. intros; apply structureDecl_same.
Qed.
End Gen.
End Ask.

(** The generated code. *)
Theorem marshallers_same : forall camel os os' fs, all_valid os -> all_valid os' ->
  Marshallers camel os fs = Marshallers camel os' fs.
Proof.
  intros camel os os' fs V V'. unfold Marshallers. pose proof (resolver_same os os' fs V V') as S.
  destruct (NewResolverFiles os fs) as [r|e|m|], (NewResolverFiles os' fs) as [r'|e'|m'|]; cbn in *; try contradiction; try congruence.
  now apply genProgram_same.
Qed.
