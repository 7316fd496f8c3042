(** When the generator produces a package and when it panics. *)
From Coq Require Import ZArith String List Bool.
From Verif Require Import Base Ast IntervalsModel InspectModel InspectSpec GoLang GenModel GenSimBody.
Import ListNotations.
Open Scope string_scope.
Open Scope list_scope.
Open Scope Z_scope.

Section Resolvable.
Variable r : resolver.

(** Everything a declaration mentions is defined. *)
Definition intDefined (i : integer) : Prop := int_value (Constant r) i <> None.
Definition listDefined (l : intlist) : Prop :=
  forall g, In g l -> intDefined (rlow g) /\ (forall h, rhigh g = Some h -> intDefined h).
Fixpoint typeResolves (t : type) : Prop :=
  match t with
  | TInt _ (Some l) => listDefined l
  | TStruct n => Struct r n <> None
  | TFixed b i => intDefined i /\ typeResolves b
  | TVar b (Some (LLeftover i)) => intDefined i /\ typeResolves b
  | TVar b _ => typeResolves b
  | _ => True
  end.
Inductive memberResolves : member -> Prop :=
| MR_field : forall n t, typeResolves t -> memberResolves (MField n t)
| MR_union : forall n tag len cs,
    (forall i, len = Some (LLeftover i) -> intDefined i) ->
    (forall l ms, In (UCase (Some l) ms) cs -> listDefined l) ->
    (forall l ms m, In (UCase l ms) cs -> In m ms -> memberResolves m) ->
    memberResolves (MUnion n tag len cs)
| MR_eos : memberResolves MEOS
| MR_fail : memberResolves MFail
| MR_ignore : memberResolves MIgnore.
(** ... and the shape is one the source syntax produces: the name is not empty,
    [fail] and [ignore] occur in unions only. *)
Definition structResolves (s : struct) : Prop :=
  sname s <> "" /\ forall m, In m (members_of s) -> memberResolves m /\ m <> MFail /\ m <> MIgnore.
(** Array sizes in contexts are defined (the syntax has integers only there). *)
Fixpoint sizesDefined (t : type) : Prop :=
  match t with
  | TFixed b i => intDefined i /\ sizesDefined b
  | TVar b _ => sizesDefined b
  | _ => True
  end.
Definition filesResolve (fs : list file) : Prop :=
  (forall f s, In f fs -> In s (fstructs f) -> Extern s = false -> structResolves s) /\
  (forall f c n t, In f fs -> In c (fcontexts f) -> In (n, t) (cmembers c) -> sizesDefined t).
End Resolvable.

Definition isOk {A} (o : outcome A) : Prop := exists a, o = Ok a.
Lemma isOk_bind : forall {A B} (o : outcome A) (f : A -> outcome B), isOk (bind o f) <-> exists a, o = Ok a /\ isOk (f a).
Proof.
  intros A B [a|e|m|] f; cbn; split; try (intros [? ?]; discriminate); try (intros (? & E & _); discriminate); eauto.
  intros (? & E & H). now injection E as ->.
Qed.
Lemma isOk_ok : forall {A} (a : A), isOk (Ok a) <-> True.
Proof. intros. split; eauto. intros _. eexists. reflexivity. Qed.
Lemma isOk_mapM : forall {A B} (f : A -> outcome B) l, isOk (mapM f l) <-> forall a, In a l -> isOk (f a).
Proof.
  intros A B f. induction l as [|a l IH]; cbn [mapM].
  - rewrite isOk_ok. split; auto. intros _ a [].
  - rewrite isOk_bind. split.
    + intros (b & E & H). apply isOk_bind in H as (bs & Es & _). intros a' [<-|I]; [eexists; eauto|].
      apply IH; auto. eexists; eauto.
    + intros H. destruct (H a) as [b E]; [now left|]. exists b. split; auto. apply isOk_bind.
      destruct (proj2 IH) as [bs Es]; [intros; apply H; now right|]. exists bs. split; auto. eexists. reflexivity.
Qed.

Section Gen.
Variable camel : string -> string.
Variable r : resolver.

Lemma integerOf_isOk : forall i, isOk (integerOf r i) <-> intDefined r i.
Proof.
  intros i. unfold intDefined. split.
  - intros [z H]. apply integerOf_value in H. congruence.
  - intros H. destruct (int_value (Constant r) i) as [z|] eqn:E; [|congruence]. exists z. now apply integerOf_value.
Qed.

Lemma clauseOf_isOk : forall v g, isOk (clauseOf r v g) <-> intDefined r (rlow g) /\ (forall h, rhigh g = Some h -> intDefined r h).
Proof.
  intros v g. unfold clauseOf. destruct (rhigh g) as [h|].
  - rewrite isOk_bind. split.
    + intros (l & E & H). apply isOk_bind in H as (h' & E' & _). split; [apply integerOf_isOk; eexists; eauto|].
      intros h0 X. injection X as <-. apply integerOf_isOk. eexists; eauto.
    + intros [A B]. apply integerOf_isOk in A as [l El]. destruct (proj2 (integerOf_isOk h) (B _ eq_refl)) as [h' Eh].
      exists l. split; auto. apply isOk_bind. exists h'. split; auto. eexists; reflexivity.
  - rewrite isOk_bind. split.
    + intros (l & E & _). split; [apply integerOf_isOk; eexists; eauto|discriminate].
    + intros [A _]. apply integerOf_isOk in A as [l El]. exists l. split; auto. eexists; reflexivity.
Qed.

Lemma conditional_isOk : forall v l, isOk (conditional r v l) <-> listDefined r l.
Proof.
  intros v l. unfold conditional. rewrite isOk_bind. split.
  - intros (cs & E & _) g I. apply (clauseOf_isOk v). eapply (isOk_mapM _ l); eauto. eexists; eauto.
  - intros H. destruct (proj2 (isOk_mapM (clauseOf r v) l)) as [cs E].
    + intros g I. apply clauseOf_isOk. now apply H.
    + exists cs. split; auto. eexists; reflexivity.
Qed.

Lemma tipe_isOk : forall t, isOk (tipe camel r t) <-> sizesDefined r t.
Proof.
  induction t as [sz cst| | | |nm|b IH i|b IH o]; cbn [tipe sizesDefined]; try (rewrite isOk_ok; tauto).
  - rewrite isOk_bind. split.
    + intros (n & E & H). apply isOk_bind in H as (g & Eg & _). split; [apply integerOf_isOk; eexists; eauto|].
      apply IH. eexists; eauto.
    + intros [A B]. apply integerOf_isOk in A as [n En]. apply IH in B as [g Eg].
      exists n. split; auto. rewrite Eg. eexists; reflexivity.
  - rewrite isOk_bind, <- IH. split.
    + intros (g & E & _). eexists; eauto.
    + intros [g E]. exists g. split; auto. eexists; reflexivity.
Qed.
Lemma resolves_sizes : forall t, typeResolves r t -> sizesDefined r t.
Proof. induction t as [| | | | |b IH i|b IH [[f|i]|]]; cbn; tauto. Qed.

Lemma intType_isOk : forall lhs sz cst, isOk (parseIntType r lhs sz cst) <-> match cst with Some l => listDefined r l | None => True end.
Proof.
  intros lhs sz [l|]; unfold parseIntType; rewrite isOk_bind.
  - rewrite <- (conditional_isOk (lexpr lhs) l). split.
    + intros (c & E & _). apply bind_ok in E as (e & E & _). eexists; eauto.
    + intros [e E]. rewrite E. eexists. split; [reflexivity|]. eexists; reflexivity.
  - split; auto. intros _. eexists. split; [reflexivity|]. eexists; reflexivity.
Qed.

Lemma parseType_isOk : forall t rv lhs, isOk (parseType camel r rv lhs t) <-> typeResolves r t.
Proof.
  induction t as [sz cst| | | |nm|b IH i|b IH [[f|i]|]]; intros rv lhs; cbn [parseType typeResolves].
  - rewrite intType_isOk. reflexivity.
  - rewrite intType_isOk. reflexivity.
  - rewrite isOk_ok. reflexivity.
  - rewrite isOk_ok. reflexivity.
  - destruct (Struct r nm); [rewrite isOk_ok; split; auto; discriminate|]. split; [intros [? ?]; discriminate|congruence].
  - rewrite isOk_bind. split.
    + intros (n & E & H). apply isOk_bind in H as (g & Eg & _). split; [apply integerOf_isOk; eexists; eauto|].
      eapply IH. eexists; eauto.
    + intros [A B]. apply integerOf_isOk in A as [n En]. apply (IH rv (LIdx lhs (EVar "idx"))) in B as [g Eg].
      exists n. split; auto. rewrite Eg. eexists; reflexivity.
  - rewrite isOk_bind. split.
    + intros (g & Eg & H). apply isOk_bind in H as (b' & Eb & _). eapply IH. eexists; eauto.
    + intros B. destruct (proj2 (tipe_isOk b) (resolves_sizes _ B)) as [g Eg]. exists g. split; auto.
      apply (IH rv (LIdx lhs (EVar "idx"))) in B as [b' Eb]. rewrite Eb. eexists; reflexivity.
  - rewrite isOk_bind. split.
    + intros (g & Eg & H). apply isOk_bind in H as (b' & Eb & H). unfold constrained in H. apply isOk_bind in H as ([ck n] & E & _).
      apply bind_ok in E as (k & Ek & _). split; [apply integerOf_isOk; eexists; eauto|]. eapply IH. eexists; eauto.
    + intros [A B]. destruct (proj2 (tipe_isOk b) (resolves_sizes _ B)) as [g Eg]. exists g. split; auto.
      apply (IH rv (LVar "tmp")) in B as [b' Eb]. rewrite Eb. cbn [bind]. unfold constrained.
      apply integerOf_isOk in A as [n En]. rewrite En. eexists; reflexivity.
  - rewrite isOk_bind. split.
    + intros (g & Eg & H). apply isOk_bind in H as (b' & Eb & _). eapply IH. eexists; eauto.
    + intros B. destruct (proj2 (tipe_isOk b) (resolves_sizes _ B)) as [g Eg]. exists g. split; auto.
      apply (IH rv (LVar "tmp")) in B as [b' Eb]. rewrite Eb. eexists; reflexivity.
Qed.

Definition pMembers (rv : string) := fix parseMembers (ms : list member) : outcome (list stmt) :=
    match ms with
    | [] => Ok []
    | m :: ms' => s <- parseMember camel r rv m ;; ss <- parseMembers ms' ;; Ok (s :: ss)
    end.
Lemma pMembers_eq : forall rv ms, pMembers rv ms = mapM (parseMember camel r rv) ms.
Proof. induction ms as [|m ms IH]; cbn; auto. now rewrite IH. Qed.
Definition pCases (rv : string) (tag : idref) := fix parseCases (cs : list ucase) : outcome (list (option expr * list stmt)) :=
        match cs with
        | [] => Ok []
        | UCase None ms :: cs' =>
            b <- pMembers rv ms ;; rest <- parseCases cs' ;; Ok ((None, b) :: rest)
        | UCase (Some l) ms :: cs' =>
            c <- conditional r (refExpr camel rv tag) l ;;
            b <- pMembers rv ms ;; rest <- parseCases cs' ;; Ok ((Some c, b) :: rest)
        end.
Lemma parseMember_union : forall rv u tag len cs, parseMember camel r rv (MUnion u tag len cs) =
  (cases <- pCases rv tag cs ;;
   match len with
   | None => Ok (SBlock [SSwitch cases])
   | Some c => b <- constrained camel r rv c [SSwitch cases] ;; Ok (SBlock b)
   end).
Proof. reflexivity. Qed.

Lemma pCases_isOk : forall rv tag cs, isOk (pCases rv tag cs) <->
  (forall l ms, In (UCase (Some l) ms) cs -> listDefined r l) /\
  (forall l ms m, In (UCase l ms) cs -> In m ms -> isOk (parseMember camel r rv m)).
Proof.
  intros rv tag. induction cs as [|[[l|] ms] cs IH]; cbn [pCases].
  - rewrite isOk_ok. split; auto. intros _. split; intros; contradiction.
  - rewrite isOk_bind. split.
    + intros (c & Ec & H). apply isOk_bind in H as (b & Eb & H). apply isOk_bind in H as (rest & Er & _).
      destruct (proj1 IH) as [A B]; [eexists; eauto|]. rewrite pMembers_eq in Eb.
      assert (M : isOk (mapM (parseMember camel r rv) ms)) by (eexists; eauto). rewrite isOk_mapM in M.
      split.
      * intros l' ms' [E|I]; eauto. injection E as <- <-. apply (conditional_isOk (refExpr camel rv tag)). eexists; eauto.
      * intros l' ms' m [E|I] J; eauto. injection E as <- <-. auto.
    + intros [A B]. destruct (proj2 (conditional_isOk (refExpr camel rv tag) l)) as [c Ec]; [eapply A; now left|].
      exists c. split; auto. apply isOk_bind.
      destruct (proj2 (isOk_mapM (parseMember camel r rv) ms)) as [b Eb]; [intros m I; eapply B; [now left|auto]|].
      exists b. rewrite pMembers_eq. split; auto. destruct (proj2 IH) as [rest Er].
      { split; intros; [eapply A; right|eapply B; [right|]]; eauto. }
      rewrite Er. eexists; reflexivity.
  - rewrite isOk_bind. split.
    + intros (b & Eb & H). apply isOk_bind in H as (rest & Er & _).
      destruct (proj1 IH) as [A B]; [eexists; eauto|]. rewrite pMembers_eq in Eb.
      assert (M : isOk (mapM (parseMember camel r rv) ms)) by (eexists; eauto). rewrite isOk_mapM in M.
      split.
      * intros l' ms' [E|I]; eauto. discriminate.
      * intros l' ms' m [E|I] J; eauto. injection E as <- <-. auto.
    + intros [A B].
      destruct (proj2 (isOk_mapM (parseMember camel r rv) ms)) as [b Eb]; [intros m I; eapply B; [now left|auto]|].
      exists b. rewrite pMembers_eq. split; auto. destruct (proj2 IH) as [rest Er].
      { split; intros; [eapply A; right|eapply B; [right|]]; eauto. }
      rewrite Er. eexists; reflexivity.
Qed.

Lemma parseMember_isOk : forall m rv, isOk (parseMember camel r rv m) <-> memberResolves r m.
Proof.
  induction m as [nm t|u tag len cs IH| | |] using member_ind'; intros rv.
  - cbn [parseMember]. rewrite isOk_bind. split.
    + intros (b & E & _). constructor. eapply parseType_isOk. eexists; eauto.
    + intros H. inversion H; subst. edestruct (proj2 (parseType_isOk t rv (LField (LVar rv) (camel nm)))) as [b E]; eauto.
      exists b. split; eauto. eexists; reflexivity.
  - rewrite parseMember_union, isOk_bind. split.
    + intros (cases & E & H). destruct (proj1 (pCases_isOk rv tag cs)) as [A B]; [eexists; eauto|]. constructor; auto.
      * intros i ->. apply isOk_bind in H as (b & Eb & _). unfold constrained in Eb. apply bind_ok in Eb as ([ck n] & E' & _).
        apply bind_ok in E' as (k & Ek & _). apply integerOf_isOk. eexists; eauto.
      * intros l ms m I J. rewrite Forall_forall in IH. specialize (IH _ I). cbn in IH. rewrite Forall_forall in IH.
        apply (IH m J rv). eauto.
    + intros H. inversion H as [|? ? ? ? H1 H2 H3| | |]; subst.
      destruct (proj2 (pCases_isOk rv tag cs)) as [cases E].
      { split; auto. intros l ms m I J. rewrite Forall_forall in IH. specialize (IH _ I). cbn in IH. rewrite Forall_forall in IH.
        apply IH; eauto. }
      exists cases. split; auto. destruct len as [[f|i]|]; try (eexists; reflexivity).
      destruct (proj2 (integerOf_isOk i) (H1 _ eq_refl)) as [k Ek]. unfold constrained. rewrite Ek. eexists; reflexivity.
  - cbn. rewrite isOk_ok. split; auto. constructor.
  - cbn. rewrite isOk_ok. split; auto. constructor.
  - cbn. rewrite isOk_ok. split; auto. constructor.
Qed.

Definition mDecls := fix membersDecl (ms : list member) : outcome (list (string * gtype)) :=
                   match ms with
                   | [] => Ok []
                   | MFail :: ms' | MIgnore :: ms' => membersDecl ms'
                   | m :: ms' => a <- memberDecl camel r m ;; b <- membersDecl ms' ;; Ok (a ++ b)
                   end.
Definition cDecls := fix casesDecl (cs : list ucase) : outcome (list (string * gtype)) :=
        match cs with
        | [] => Ok []
        | UCase _ ms :: cs' => d <- mDecls ms ;; rest <- casesDecl cs' ;; Ok (d ++ rest)
        end.
Lemma memberDecl_isOk : forall m, memberResolves r m -> m <> MFail -> m <> MIgnore -> isOk (memberDecl camel r m).
Proof.
  induction m as [nm t|u tag len cs IH| | |] using member_ind'; intros H N1 N2; try congruence.
  - inversion H; subst. cbn [memberDecl]. destruct (proj2 (tipe_isOk t)) as [g ->]; [now apply resolves_sizes|]. eexists; reflexivity.
  - change (memberDecl camel r (MUnion u tag len cs)) with (cDecls cs). inversion H as [|? ? ? ? _ _ H3| | |]; subst. clear H N1 N2.
    induction cs as [|[l ms] cs IHcs]; [eexists; reflexivity|]. cbn [cDecls].
    assert (M : isOk (mDecls ms)).
    { pose proof (Forall_inv IH) as IM. cbn in IM. specialize (H3 l ms). assert (HM : forall m, In m ms -> memberResolves r m) by (intros; apply H3; auto; now left).
      clear - IM HM. induction ms as [|m ms IHms]; [eexists; reflexivity|]. 
      assert (R : isOk (mDecls ms)) by (apply IHms; [exact (Forall_inv_tail IM)|intros; apply HM; now right]).
      assert (X : m <> MFail -> m <> MIgnore -> isOk (a <- memberDecl camel r m ;; b <- mDecls ms ;; Ok (a ++ b))).
      { intros N1 N2. destruct (Forall_inv IM (HM m (or_introl eq_refl)) N1 N2) as [a ->]. destruct R as [b ->]. eexists; reflexivity. }
      destruct m; cbn [mDecls]; auto; apply X; discriminate. }
    destruct M as [d ->]. cbn [bind]. destruct IHcs as [rest ->].
    + exact (Forall_inv_tail IH).
    + intros l' ms' m I J. eapply (H3 l' ms'); auto. now right.
    + eexists; reflexivity.
  - eexists; reflexivity.
Qed.

Lemma memberDecl_bad : forall m, isOk (memberDecl camel r m) -> m <> MFail /\ m <> MIgnore.
Proof. intros m [a H]. split; intros ->; discriminate. Qed.

Lemma structureDecl_isOk : forall s, isOk (structureDecl camel r s) <-> structResolves r s.
Proof.
  intros s. unfold structureDecl, structResolves. rewrite isOk_bind. split.
  - intros (d & Ed & H). apply isOk_bind in H as (f & Ef & _). unfold parseFunc in Ef. apply bind_ok in Ef as (rv & Er & Ef).
    apply bind_ok in Ef as (ms & Em & _). unfold structDecl in Ed. apply bind_ok in Ed as (ds & Ed & _).
    split; [intros E; rewrite E in Er; discriminate|]. intros m I.
    assert (M1 : isOk (mapM (parseMember camel r rv) (members_of s))) by (eexists; eauto).
    assert (M2 : isOk (mapM (memberDecl camel r) (members_of s))) by (eexists; eauto).
    rewrite isOk_mapM in M1; rewrite isOk_mapM in M2. split; [apply (parseMember_isOk m rv); auto|apply memberDecl_bad; auto].
  - intros [N H]. assert (D : isOk (mapM (memberDecl camel r) (members_of s))).
    { apply isOk_mapM. intros m I. destruct (H m I) as (A & B & C). now apply memberDecl_isOk. }
    destruct D as [ds Ed]. unfold structDecl. rewrite Ed. eexists. split; [reflexivity|].
    assert (R : exists rv, receiverName (sname s) = Ok rv) by (destruct (sname s); [congruence|eexists; reflexivity]).
    destruct R as [rv Er]. unfold parseFunc, ctorFunc. rewrite Er. cbn [bind].
    assert (M : isOk (mapM (parseMember camel r rv) (members_of s))).
    { apply isOk_mapM. intros m I. apply parseMember_isOk. now apply H. }
    destruct M as [ms ->]. eexists; reflexivity.
Qed.

Lemma contextDecl_isOk : forall c, isOk (contextDecl camel r c) <-> forall n t, In (n, t) (cmembers c) -> sizesDefined r t.
Proof.
  intros c. unfold contextDecl. rewrite isOk_bind. split.
  - intros (fs & E & _) n t I.
    assert (M : isOk (mapM (fun f => g <- tipe camel r (snd f) ;; Ok (camel (fst f), g)) (cmembers c))) by (eexists; eauto).
    rewrite isOk_mapM in M. specialize (M _ I). apply isOk_bind in M as (g & Eg & _). apply tipe_isOk. eexists; eauto.
  - intros H. assert (M : isOk (mapM (fun f => g <- tipe camel r (snd f) ;; Ok (camel (fst f), g)) (cmembers c))).
    { apply isOk_mapM. intros [n t] I. cbn. destruct (proj2 (tipe_isOk t) (H _ _ I)) as [g ->]. eexists; reflexivity. }
    destruct M as [fs E]. exists fs. split; auto. eexists; reflexivity.
Qed.

Theorem genProgram_isOk : forall fs, isOk (genProgram camel r fs) <-> filesResolve r fs.
Proof.
  intros fs. unfold genProgram, filesResolve. rewrite isOk_bind. split.
  - intros (cs & Ec & H). apply isOk_bind in H as (ss & Es & _).
    assert (M1 : isOk (mapM (contextDecl camel r) (flat_map fcontexts fs))) by (eexists; eauto).
    assert (M2 : isOk (mapM (structureDecl camel r) (definedStructs fs))) by (eexists; eauto).
    rewrite isOk_mapM in M1; rewrite isOk_mapM in M2. split.
    + intros f s I J E. apply structureDecl_isOk, M2. unfold definedStructs. apply filter_In. rewrite E. split; auto.
      apply in_flat_map. eauto.
    + intros f c n t I J K. eapply (proj1 (contextDecl_isOk c)); eauto. apply M1. apply in_flat_map. eauto.
  - intros [A B].
    assert (M1 : isOk (mapM (contextDecl camel r) (flat_map fcontexts fs))).
    { apply isOk_mapM. intros c I. apply in_flat_map in I as (f & I & J). apply contextDecl_isOk. intros. eapply B; eauto. }
    assert (M2 : isOk (mapM (structureDecl camel r) (definedStructs fs))).
    { apply isOk_mapM. intros s I. apply filter_In in I as [I E]. apply in_flat_map in I as (f & I & J).
      apply structureDecl_isOk. eapply A; eauto. now apply negb_true_iff in E. }
    destruct M1 as [cs E1], M2 as [ss E2]. exists cs. split; auto. rewrite E2. eexists; reflexivity.
Qed.
End Gen.

(** No other outcome than a package or a panic. *)
Definition okOrPanic {A} (o : outcome A) : Prop := match o with Ok _ | Panic _ => True | _ => False end.

Lemma op_bind : forall {A B} (o : outcome A) (f : A -> outcome B), okOrPanic o -> (forall a, okOrPanic (f a)) -> okOrPanic (bind o f).
Proof. intros A B [a|e|m|] f H K; cbn in *; auto. Qed.
Lemma op_mapM : forall {A B} (f : A -> outcome B) l, (forall a, In a l -> okOrPanic (f a)) -> okOrPanic (mapM f l).
Proof.
  intros A B f. induction l as [|a l IH]; intros H; [exact I|]. cbn [mapM]. apply op_bind; [apply H; now left|].
  intros b. apply op_bind; [apply IH; intros; apply H; now right|]. intros bs. exact I.
Qed.
Section OrPanic.
Variable camel : string -> string.
Variable r : resolver.
Lemma op_integerOf : forall i, okOrPanic (integerOf r i).
Proof. intros [n|z]; unfold integerOf, Integer; [destruct (Constant r n)|]; exact I. Qed.
Lemma op_clause : forall v g, okOrPanic (clauseOf r v g).
Proof.
  intros v g. unfold clauseOf. destruct (rhigh g); apply op_bind; try apply op_integerOf; intros; try exact I.
  apply op_bind; [apply op_integerOf|]. intros; exact I.
Qed.
Lemma op_conditional : forall v l, okOrPanic (conditional r v l).
Proof. intros. unfold conditional. apply op_bind; [apply op_mapM; intros; apply op_clause|]. intros; exact I. Qed.
Lemma op_tipe : forall t, okOrPanic (tipe camel r t).
Proof.
  induction t; cbn [tipe]; try exact I; apply op_bind; auto; try apply op_integerOf; intros; try exact I.
  apply op_bind; auto; intros; exact I.
Qed.
Lemma op_intType : forall lhs sz cst, okOrPanic (parseIntType r lhs sz cst).
Proof.
  intros lhs sz [l|]; unfold parseIntType; apply op_bind; intros; try exact I.
  apply op_bind; [apply op_conditional|]. intros; exact I.
Qed.
Lemma op_constrained : forall rv c b, okOrPanic (constrained camel r rv c b).
Proof.
  intros rv [f|i] b; unfold constrained; apply op_bind; try exact I; try (intros [ck n]; exact I).
  apply op_bind; [apply op_integerOf|]. intros; exact I.
Qed.
Lemma op_parseType : forall t rv lhs, okOrPanic (parseType camel r rv lhs t).
Proof.
  induction t as [sz cst| | | |nm|b IH i|b IH [[f|i]|]]; intros rv lhs; cbn [parseType]; try apply op_intType; try exact I.
  - destruct (Struct r nm); exact I.
  - apply op_bind; [apply op_integerOf|]. intros. apply op_bind; auto. intros; exact I.
  - apply op_bind; [apply op_tipe|]. intros. apply op_bind; auto. intros; exact I.
  - apply op_bind; [apply op_tipe|]. intros. apply op_bind; auto. intros; apply op_constrained.
  - apply op_bind; [apply op_tipe|]. intros. apply op_bind; auto. intros; exact I.
Qed.
Lemma op_parseMember : forall m rv, okOrPanic (parseMember camel r rv m).
Proof.
  induction m as [nm t|u tag len cs IH| | |] using member_ind'; intros rv; try exact I.
  - cbn [parseMember]. apply op_bind; [apply op_parseType|]. intros; exact I.
  - rewrite parseMember_union. apply op_bind.
    + induction cs as [|[[l|] ms] cs IHcs]; [exact I| |]; cbn [pCases];
        pose proof (Forall_inv IH) as IM; cbn in IM; rewrite Forall_forall in IM.
      * apply op_bind; [apply op_conditional|]. intros c. rewrite pMembers_eq. apply op_bind; [apply op_mapM; auto|].
        intros b. apply op_bind; [apply IHcs; exact (Forall_inv_tail IH)|]. intros; exact I.
      * rewrite pMembers_eq. apply op_bind; [apply op_mapM; auto|].
        intros b. apply op_bind; [apply IHcs; exact (Forall_inv_tail IH)|]. intros; exact I.
    + intros cases. destruct len; [|exact I]. apply op_bind; [apply op_constrained|]. intros; exact I.
Qed.
Lemma op_memberDecl : forall m, okOrPanic (memberDecl camel r m).
Proof.
  induction m as [nm t|u tag len cs IH| | |] using member_ind'; try exact I.
  - cbn [memberDecl]. apply op_bind; [apply op_tipe|]. intros; exact I.
  - change (memberDecl camel r (MUnion u tag len cs)) with (cDecls camel r cs).
    induction cs as [|[l ms] cs IHcs]; [exact I|]. cbn [cDecls]. apply op_bind.
    + pose proof (Forall_inv IH) as IM. cbn in IM. clear - IM. induction ms as [|m ms IHms]; [exact I|].
      pose proof (IHms (Forall_inv_tail IM)) as R. pose proof (Forall_inv IM) as R'. clear IHms IM.
      destruct m; cbn [mDecls]; auto; (apply op_bind; [exact R'|]; intros; apply op_bind; [exact R|]; intros; exact I).
    + intros. apply op_bind; [apply IHcs; exact (Forall_inv_tail IH)|]. intros; exact I.
Qed.
Theorem genProgram_okOrPanic : forall fs, okOrPanic (genProgram camel r fs).
Proof.
  intros fs. unfold genProgram. apply op_bind.
  - apply op_mapM. intros c _. unfold contextDecl. apply op_bind; [|intros; exact I]. apply op_mapM. intros f _.
    apply op_bind; [apply op_tipe|]. intros; exact I.
  - intros cs. apply op_bind; [|intros; exact I]. apply op_mapM. intros s _. unfold structureDecl.
    apply op_bind.
    + unfold structDecl. apply op_bind; [apply op_mapM; intros; apply op_memberDecl|]. intros; exact I.
    + intros d. assert (R : okOrPanic (receiverName (sname s))) by (destruct (sname s); exact I).
      apply op_bind.
      * unfold parseFunc. apply op_bind; auto. intros rv. apply op_bind; [apply op_mapM; intros; apply op_parseMember|]. intros; exact I.
      * intros f. apply op_bind; [|intros; exact I]. unfold ctorFunc. apply op_bind; auto. intros; exact I.
Qed.
End OrPanic.
