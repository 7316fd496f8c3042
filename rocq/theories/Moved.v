(** Declarations that are distributed differently over files: the checks of
    GenCheck.v, and with them the generated package, do not depend on it. *)
From Coq Require Import ZArith String List Bool Lia Permutation.
From Verif Require Import Base Ast IntervalsModel InspectModel InspectSpec InspectProofs GoLang GenModel GenCheck GenSim GenSimBody GenTotal GenSwitch
  PackageSpec SameSpec WireComplete.
Import ListNotations.
Open Scope string_scope.
Open Scope list_scope.
Open Scope Z_scope.

(* ---------- what passes the checks is generated ---------- *)

Section Resolves.
Variable camel : string -> string.
Variable r : resolver.
Lemma bounds_defined : forall g b, range_bounds (Constant r) g = Some b ->
  intDefined r (rlow g) /\ (forall h, rhigh g = Some h -> intDefined r h).
Proof.
  intros [lo hi] b. unfold range_bounds, intDefined. cbn [rlow rhigh]. destruct (int_value (Constant r) lo); [|discriminate]. intros H. split; [discriminate|].
  intros h ->. destruct (int_value (Constant r) h); congruence.
Qed.
Lemma defined_list : forall l, definedList r l = true -> listDefined r l.
Proof.
  intros l H g I. unfold definedList in H. apply andb_true_iff in H as [H _]. rewrite forallb_forall in H. specialize (H g I).
  destruct (range_bounds (Constant r) g) eqn:E; [|discriminate]. eapply bounds_defined; eauto.
Qed.
Lemma count_defined : forall i, goodCount r i = true -> intDefined r i.
Proof. intros i H. unfold goodCount, intDefined in *. destruct (int_value (Constant r) i); congruence. Qed.
Lemma base_resolves : forall ctxs t, checkBase r ctxs t = true -> typeResolves r t.
Proof.
  intros ctxs [sz [l|]| | | |n|b i|b l] H; cbn [checkBase typeResolves] in *; auto; try discriminate.
  - unfold checkInt in H. apply andb_true_iff in H as [_ H]. now apply defined_list.
  - destruct (Struct r n); congruence.
Qed.
Lemma type_resolves : forall ctxs k t, checkType r ctxs k t = true -> typeResolves r t.
Proof.
  intros ctxs k t C. destruct t as [sz o| | | |n|b i|b [[f|i]|]]; cbn [checkType] in C; try (eapply base_resolves; exact C); try (apply andb_true_iff in C as [C C2]);
    cbn [typeResolves]; try split; try (eapply base_resolves; exact C); try (now apply count_defined).
Qed.
Lemma member_resolves : forall ctxs m k, checkMember r ctxs k m = true -> memberResolves r m.
Proof.
  intros ctxs. induction m as [nm t|u tag len cs IH| | |] using member_ind'; intros k C; constructor.
  - cbn [checkMember] in C. eapply type_resolves; eauto.
  - intros i ->. cbn [checkMember] in C. apply andb_true_iff in C as [C _]. apply andb_true_iff in C as [_ C]. now apply count_defined.
  - intros l ms I. destruct (check_union _ _ _ _ _ _ _ C) as (_ & _ & CC). apply CC in I as [CL _]. cbn [ucase_list] in CL. now apply defined_list.
  - intros l ms m I J. destruct (check_union _ _ _ _ _ _ _ C) as (_ & _ & CC). pose proof (CC _ I) as [_ CM]. rewrite Forall_forall in IH. specialize (IH _ I).
    cbn [ucase_members] in *. clear - IH CM J. revert k CM. induction ms as [|m1 ms IHm]; intros k CM; [destruct J|].
    cbn [checkMembers] in CM. apply andb_true_iff in CM as [C1 C2]. destruct J as [->|J].
    + exact (Forall_inv IH k C1).
    + eapply IHm; eauto. exact (Forall_inv_tail IH).
Qed.
Lemma struct_resolves : forall s, checkStruct camel r s = true -> structResolves r s.
Proof.
  intros s C. unfold checkStruct in C. rewrite !andb_true_iff in C. destruct C as (((((T & _) & CM) & _) & _) & SC). split.
  - unfold checkScope in SC. destruct (sname s) eqn:E; [|discriminate]. cbn in SC. discriminate.
  - rewrite forallb_forall in T. intros m I. split; [|split; intros ->; now specialize (T _ I)].
    revert CM I. generalize ([] : GenCheck.known). induction (members_of s) as [|m1 ms IH]; intros k CM I; [destruct I|].
    cbn [checkMembers] in CM. apply andb_true_iff in CM as [C1 C2]. destruct I as [->|I]; [eapply member_resolves; eauto|].
    eapply IH; eauto. intros x J. apply T. now right.
Qed.
Lemma files_resolve : forall fs, checkFiles camel r fs = true -> filesResolve r fs.
Proof.
  intros fs C. unfold checkFiles in C. rewrite !andb_true_iff in C. destruct C as ((CS & CC) & _). rewrite forallb_forall in CS, CC. split.
  - intros f s I J X. apply struct_resolves, CS. unfold definedStructs. apply filter_In. rewrite X. split; auto. apply in_flat_map. eauto.
  - intros f c n t I J K. assert (CX : checkContext camel r c = true) by (apply CC, in_flat_map; eauto).
    unfold checkContext in CX. rewrite !andb_true_iff in CX. destruct CX as ((CX & _) & _). rewrite forallb_forall in CX. specialize (CX _ K). cbn [snd] in CX.
    destruct t; try discriminate. exact I0 || exact Logic.I.
Qed.
End Resolves.
Theorem checked_package : forall camel os fs r, all_valid os -> NewResolverFiles os fs = Ok r -> checkFiles camel r fs = true -> exists p, package camel os fs r p.
Proof.
  intros camel os fs r V R C. assert (G : exists p, Marshallers camel os fs = Ok p) by (apply (marshallers_iff camel os fs r R); eapply files_resolve; eauto).
  destruct G as [p G]. exists p. constructor; auto.
Qed.

(* ---------- the checks need the definitions only ---------- *)

Section Agree.
Variable camel : string -> string.
Variable r r' : resolver.
Hypothesis A : agree r r'.
Lemma ag_const : forall n, Constant r n = Constant r' n.
Proof. apply A. Qed.
Lemma ag_int : forall i, int_value (Constant r) i = int_value (Constant r') i.
Proof. intros [n|z]; cbn; auto using ag_const. Qed.
Lemma ag_range : forall g, range_bounds (Constant r) g = range_bounds (Constant r') g.
Proof. intros [lo [hi|]]; unfold range_bounds; cbn [rlow rhigh]; now rewrite !ag_int. Qed.
Lemma ag_list : forall l, definedList r l = definedList r' l.
Proof. intros l. unfold definedList. f_equal. induction l as [|g l IH]; cbn; auto. now rewrite ag_range, IH. Qed.
Lemma ag_count : forall i, goodCount r i = goodCount r' i.
Proof. intros i. unfold goodCount. now rewrite ag_int. Qed.
Lemma ag_checkInt : forall sz o, checkInt r sz o = checkInt r' sz o.
Proof. intros sz [l|]; unfold checkInt; now rewrite ?ag_list. Qed.
Lemma ag_base : forall ctxs t, checkBase r ctxs t = checkBase r' ctxs t.
Proof.
  intros ctxs [sz o| | | |n|b i|b l]; cbn [checkBase]; auto using ag_checkInt. destruct A as (S & _).
  destruct (Struct r n) as [s|] eqn:E.
  - destruct (Extern s) eqn:X.
    + cbn. destruct (Struct r' n) as [s'|] eqn:E'; auto. destruct (Extern s') eqn:X'; auto. apply (S n s' X') in E'. congruence.
    + apply (S n s X) in E. rewrite E. now rewrite X.
  - destruct (Struct r' n) as [s'|] eqn:E'; auto. destruct (Extern s') eqn:X'; auto. apply (S n s' X') in E'. congruence.
Qed.
Lemma ag_ref : forall ctxs k f, refWidth r ctxs k f = refWidth r' ctxs k f.
Proof. intros. unfold refWidth, ctxField. destruct A as (_ & C & _). now rewrite C. Qed.
Lemma ag_type : forall ctxs k t, checkType r ctxs k t = checkType r' ctxs k t.
Proof.
  intros ctxs k t. destruct t as [sz o| | | |n|b i|b [[f|i]|]]; cbn [checkType]; rewrite ?ag_base, ?ag_count, ?ag_ref; auto; try apply ag_base.
Qed.
Lemma ag_member : forall ctxs m k, checkMember r ctxs k m = checkMember r' ctxs k m.
Proof.
  intros ctxs. induction m as [nm t|u tag len cs IH| | |] using member_ind'; intros k; cbn [checkMember]; auto using ag_type.
  rewrite ag_ref. f_equal; [f_equal; destruct len as [[f|i]|]; now rewrite ?ag_ref, ?ag_count|].
  induction cs as [|[l ms] cs IHc]; cbn [forallb]; auto. rewrite IHc by exact (Forall_inv_tail IH). f_equal. f_equal; [destruct l; auto using ag_list|].
  pose proof (Forall_inv IH) as I1. cbn [ucase_members] in I1. clear - I1. revert k. induction ms as [|m ms IHm]; intros k; auto.
  rewrite (Forall_inv I1 k). f_equal. apply IHm. exact (Forall_inv_tail I1).
Qed.
Lemma ag_members : forall ctxs ms k, checkMembers r ctxs k ms = checkMembers r' ctxs k ms.
Proof. intros ctxs. induction ms as [|m ms IH]; intros k; cbn [checkMembers]; auto. now rewrite ag_member, IH. Qed.
Lemma ag_struct : forall s, checkStruct camel r s = checkStruct camel r' s.
Proof.
  intros s. unfold checkStruct. rewrite ag_members. do 2 f_equal. destruct A as (_ & C & _).
  induction (scontexts s) as [|x l IH]; cbn; auto. now rewrite C, IH.
Qed.
Lemma ag_context : forall c, checkContext camel r c = checkContext camel r' c.
Proof.
  intros c. unfold checkContext. do 2 f_equal. induction (cmembers c) as [|[n t] l IH]; cbn [forallb snd]; auto. rewrite IH. destruct t; auto. now rewrite ag_checkInt.
Qed.
End Agree.

(* ---------- the same declarations in other files ---------- *)

(** The files [fs'] together hold the declarations of [fs]. *)
Record sameDeclarations (fs fs' : list file) : Prop := {
  sd_constants : Permutation (flat_map fconstants fs) (flat_map fconstants fs');
  sd_contexts : Permutation (flat_map fcontexts fs) (flat_map fcontexts fs');
  sd_structs : Permutation (flat_map fstructs fs) (flat_map fstructs fs') }.
Lemma sd_sym : forall fs fs', sameDeclarations fs fs' -> sameDeclarations fs' fs.
Proof. intros fs fs' [A B C]. constructor; now apply Permutation_sym. Qed.
Lemma sd_agree : forall os os' fs fs' r r', all_valid os -> all_valid os' -> sameDeclarations fs fs' ->
  NewResolverFiles os fs = Ok r -> NewResolverFiles os' fs' = Ok r' -> agree r r'.
Proof.
  intros os os' fs fs' r r' V V' [P1 P2 P3] R R'.
  destruct (addFiles_answers _ _ _ _ _ V R) as (A1 & A2 & A3). destruct (addFiles_answers _ _ _ _ _ V' R') as (B1 & B2 & B3).
  assert (T : forall (X : Type) (g : file -> list X) (Q : X -> Prop) fsa fsb, Permutation (flat_map g fsa) (flat_map g fsb) ->
             (exists f, In f fsa /\ exists x, In x (g f) /\ Q x) -> exists f, In f fsb /\ exists x, In x (g f) /\ Q x).
  { intros X g Q fsa fsb P (f & I & x & J & H). assert (K : In x (flat_map g fsb)) by (eapply Permutation_in; [exact P|]; apply in_flat_map; eauto).
    apply in_flat_map in K as (f' & I' & J'). eauto. }
  split; [|split].
  - intros n s X. rewrite (A1 n s X), (B1 n s X). split; intros [H|(f & I & J & E)]; try (cbn in H; discriminate); right.
    + destruct (T _ fstructs (fun x => x = s) fs fs' P3) as (f' & I' & x & J' & ->); eauto.
    + destruct (T _ fstructs (fun x => x = s) fs' fs (Permutation_sym P3)) as (f' & I' & x & J' & ->); eauto.
  - intros n. assert (E : forall c, Context r n = Some c <-> Context r' n = Some c).
    { intros c. rewrite A2, B2. split; intros [H|(f & I & J & E)]; try (cbn in H; discriminate); right.
      + destruct (T _ fcontexts (fun x => x = c) fs fs' P2) as (f' & I' & x & J' & ->); eauto.
      + destruct (T _ fcontexts (fun x => x = c) fs' fs (Permutation_sym P2)) as (f' & I' & x & J' & ->); eauto. }
    destruct (Context r n) as [c|] eqn:F; [symmetry; now apply E|]. destruct (Context r' n) as [c|] eqn:F'; auto. destruct (E c) as [_ E2]. discriminate (E2 eq_refl).
  - intros n. assert (E : forall c, Constant r n = Some c <-> Constant r' n = Some c).
    { intros c. rewrite A3, B3. split; intros [H|(f & x & I & J & E)]; try (cbn in H; discriminate); right.
      + destruct (T _ fconstants (fun x => kname x = n /\ kvalue x = c) fs fs' P1) as (f' & I' & y & J' & E'); eauto 8.
      + destruct (T _ fconstants (fun x => kname x = n /\ kvalue x = c) fs' fs (Permutation_sym P1)) as (f' & I' & y & J' & E'); eauto 8. }
    destruct (Constant r n) as [c|] eqn:F; [symmetry; now apply E|]. destruct (Constant r' n) as [c|] eqn:F'; auto. destruct (E c) as [_ E2]. discriminate (E2 eq_refl).
Qed.
Lemma perm_forallb : forall {A} (p : A -> bool) l l', Permutation l l' -> forallb p l = forallb p l'.
Proof. intros A p l l' P. induction P; cbn; try congruence. now rewrite !andb_assoc, (andb_comm (p y)). Qed.
Lemma perm_filter : forall {A} (p : A -> bool) l l', Permutation l l' -> Permutation (filter p l) (filter p l').
Proof.
  intros A p l l' P. induction P; cbn; auto.
  - destruct (p x); auto.
  - destruct (p y), (p x); auto using perm_swap.
  - eapply Permutation_trans; eauto.
Qed.
Theorem sd_checked : forall camel os os' fs fs' r r', all_valid os -> all_valid os' -> sameDeclarations fs fs' ->
  NewResolverFiles os fs = Ok r -> NewResolverFiles os' fs' = Ok r' -> checkFiles camel r fs = true -> checkFiles camel r' fs' = true.
Proof.
  intros camel os os' fs fs' r r' V V' SD R R' C. pose proof (sd_agree _ _ _ _ _ _ V V' SD R R') as A. destruct SD as [P1 P2 P3].
  unfold checkFiles in *. rewrite !andb_true_iff in *. destruct C as ((CS & CC) & ND).
  assert (PD : Permutation (definedStructs fs) (definedStructs fs')) by (now apply perm_filter).
  split; [split|].
  - rewrite <- (perm_forallb _ _ _ PD). rewrite <- CS. clear - A. induction (definedStructs fs) as [|s l IH]; cbn; auto. now rewrite (ag_struct camel r r' A), IH.
  - rewrite <- (perm_forallb _ _ _ P2). rewrite <- CC. clear - A. induction (flat_map fcontexts fs) as [|s l IH]; cbn; auto. now rewrite (ag_context camel r r' A), IH.
  - apply nodupb_NoDup. apply nodupb_NoDup in ND. eapply Permutation_NoDup; [|exact ND]. apply Permutation_app; now apply Permutation_map.
Qed.
Theorem sd_package : forall camel os os' fs fs' r r' p, all_valid os' -> sameDeclarations fs fs' ->
  package camel os fs r p -> NewResolverFiles os' fs' = Ok r' -> exists p', package camel os' fs' r' p'.
Proof. intros camel os os' fs fs' r r' p V' SD [V R G C] R'. eapply checked_package; eauto. exact (sd_checked camel os os' fs fs' r r' V V' SD R R' C). Qed.
