(** The text for a declaration depends on what it mentions. *)
From Coq Require Import ZArith String Ascii List Bool.
From Verif Require Import Base Ast InspectModel InspectSpec InspectProofs GoLang GenModel GenPrint GenSimProg WireSpec ContextSpec LocalSpec TextModel TextLex.
Import ListNotations.
Open Scope string_scope.
Open Scope list_scope.
Open Scope Z_scope.

(** Results that are the same when there are any. *)
Definition oeq {A} (o o' : outcome A) : Prop := forall a a', o = Ok a -> o' = Ok a' -> a = a'.
Lemma oeq_refl : forall A (o : outcome A), oeq o o.
Proof. intros A o a a' H H'. congruence. Qed.
Lemma oeq_bind : forall A B (o o' : outcome A) (k k' : A -> outcome B), oeq o o' -> (forall a, oeq (k a) (k' a)) -> oeq (bind o k) (bind o' k').
Proof.
  intros A B o o' k k' H K a a' E E'. destruct o as [x| | |]; try discriminate. destruct o' as [x'| | |]; try discriminate.
  rewrite <- (H x x' eq_refl eq_refl) in E'. eapply K; eauto.
Qed.
Lemma oeq_mapM : forall A B (f f' : A -> outcome B) l, (forall a, In a l -> oeq (f a) (f' a)) -> oeq (mapM f l) (mapM f' l).
Proof.
  intros A B f f' l. induction l as [|a l IH]; intros H; cbn [mapM]; [apply oeq_refl|].
  apply oeq_bind; [apply H; now left|]. intros b. apply oeq_bind; [apply IH; intros; apply H; now right|]. intros; apply oeq_refl.
Qed.

Section Local.
Variable camel : string -> string.
Variables r r' : resolver.
Notation sameK l := (forall k v v', In k l -> Constant r k = Some v -> Constant r' k = Some v' -> v = v').
Notation sameS l := (forall n s s', In n l -> Struct r n = Some s -> Struct r' n = Some s' -> scontexts s = scontexts s').

Lemma integer_eq : forall i, sameK (intConsts i) -> oeq (integerS r i) (integerS r' i).
Proof.
  intros [k|z] H; [|apply oeq_refl]. unfold integerS, integerOf. rewrite !Integer_value. cbn [int_value].
  destruct (Constant r k) as [v|] eqn:E; [|discriminate]. destruct (Constant r' k) as [v'|] eqn:E'; [|intros ? ? ? X; discriminate X].
  rewrite (H k v v') by (auto; now left). apply oeq_refl.
Qed.
Lemma tipe_eq : forall t, sameK (typeConsts t) -> oeq (tipeS camel r t) (tipeS camel r' t).
Proof.
  induction t as [| | | | |b IH i|b IH l]; intros H; cbn [tipeS]; try apply oeq_refl.
  - apply oeq_bind; [apply integer_eq; intros k v v' I; apply H; cbn [typeConsts]; apply in_or_app; now right|]. intros a.
    apply oeq_bind; [apply IH; intros k v v' I; apply H; cbn [typeConsts]; apply in_or_app; now left|]. intros; apply oeq_refl.
  - apply oeq_bind; [apply IH; intros k v v' I; apply H; cbn [typeConsts]; apply in_or_app; now left|]. intros; apply oeq_refl.
Qed.
Lemma clause_eq : forall x g, sameK (rangeConsts g) -> oeq (clauseS r x g) (clauseS r' x g).
Proof.
  intros x [l [h|]] H; unfold clauseS, rangeConsts in *; cbn [rlow rhigh] in *.
  - apply oeq_bind; [apply integer_eq; intros k v v' I; apply H; apply in_or_app; now left|]. intros a.
    apply oeq_bind; [apply integer_eq; intros k v v' I; apply H; apply in_or_app; now right|]. intros; apply oeq_refl.
  - apply oeq_bind; [apply integer_eq; intros k v v' I; apply H; apply in_or_app; now left|]. intros; apply oeq_refl.
Qed.
Lemma conditional_eq : forall x l, sameK (flat_map rangeConsts l) -> oeq (conditionalS r x l) (conditionalS r' x l).
Proof.
  intros x l H. unfold conditionalS. apply oeq_bind; [|intros; apply oeq_refl]. apply oeq_mapM. intros g I. apply clause_eq.
  intros k v v' J. apply H. apply in_flat_map. eauto.
Qed.
Lemma int_eq : forall lhs sz cst, sameK (typeConsts (TInt sz cst)) -> oeq (parseIntTypeS r lhs sz cst) (parseIntTypeS r' lhs sz cst).
Proof.
  intros lhs sz [l|] H; unfold parseIntTypeS; cbv zeta; [|apply oeq_refl]. apply oeq_bind; [|intros; apply oeq_refl].
  apply oeq_bind; [now apply conditional_eq|]. intros; apply oeq_refl.
Qed.
Lemma constrained_eq : forall recv c b, sameK (lengthConsts (Some c)) -> oeq (constrainedS camel r recv c b) (constrainedS camel r' recv c b).
Proof.
  intros recv [f|i] b H; unfold constrainedS; [apply oeq_refl|]. apply oeq_bind; [|intros []; apply oeq_refl].
  apply oeq_bind; [now apply integer_eq|]. intros; apply oeq_refl.
Qed.
Lemma type_eq : forall t recv lhs, sameK (typeConsts t) -> sameS (structsIn t) -> oeq (parseTypeS camel r recv lhs t) (parseTypeS camel r' recv lhs t).
Proof.
  induction t as [sz cst| | | |nm|b IH i|b IH l]; intros recv lhs HK HS; cbn [parseTypeS]; try apply oeq_refl.
  - now apply int_eq.
  - destruct (Struct r nm) as [s|] eqn:E; [|discriminate]. destruct (Struct r' nm) as [s'|] eqn:E'; [|intros ? ? ? X; discriminate X].
    rewrite (HS nm s s') by (auto; now left). apply oeq_refl.
  - cbn [typeConsts] in HK. apply oeq_bind; [apply integer_eq; intros k v v' I; apply HK; apply in_or_app; now right|]. intros a.
    apply oeq_bind; [apply IH; auto; intros k v v' I; apply HK; apply in_or_app; now left|]. intros; apply oeq_refl.
  - cbn [typeConsts] in HK.
    assert (HB : sameK (typeConsts b)) by (intros k v v' I; apply HK; apply in_or_app; now left).
    assert (HL : sameK (lengthConsts l)) by (intros k v v' I; apply HK; apply in_or_app; now right).
    destruct l as [[f|i]|]; cbv zeta; (apply oeq_bind; [now apply tipe_eq|]; intros g; apply oeq_bind; [now apply IH|]; intros body); try apply oeq_refl.
    now apply constrained_eq.
Qed.

Notation membersS r recv := (fix parseMembersS (ms : list member) : outcome string :=
    match ms with
    | [] => Ok EmptyString
    | m :: ms' => s <- parseMemberS camel r recv m ;; ss <- parseMembersS ms' ;; Ok (join [s; ss])
    end).
Definition memEq (m : member) : Prop := forall recv, sameK (memberConsts m) -> sameS (flat_map (fun f => structsIn (snd f)) (allFields m)) ->
  oeq (parseMemberS camel r recv m) (parseMemberS camel r' recv m).
Lemma members_eq : forall recv ms, Forall memEq ms -> sameK (flat_map memberConsts ms) -> sameS (flat_map (fun f => structsIn (snd f)) (flat_map allFields ms)) ->
  oeq (membersS r recv ms) (membersS r' recv ms).
Proof.
  intros recv. induction ms as [|m ms IH]; intros F HK HS; [apply oeq_refl|]. cbn [flat_map] in *. rewrite flat_map_app in HS.
  apply oeq_bind.
  - apply (Forall_inv F).
    + intros k v v' I; apply HK; apply in_or_app; now left.
    + intros k v v' I; apply HS; apply in_or_app; now left.
  - intros a. apply oeq_bind; [|intros; apply oeq_refl]. apply IH; [eapply Forall_inv_tail; eauto| |].
    + intros k v v' I; apply HK; apply in_or_app; now right.
    + intros k v v' I; apply HS; apply in_or_app; now right.
Qed.
Lemma member_eq : forall m, memEq m.
Proof.
  induction m as [nm t|u tag len cs IH| | |] using member_ind'; intros recv HK HS; cbn [parseMemberS]; cbv zeta; try apply oeq_refl.
  - apply oeq_bind; [|intros; apply oeq_refl]. apply type_eq; auto. cbn [allFields flat_map snd] in HS. now rewrite app_nil_r in HS.
  - apply oeq_bind; [|intros; apply oeq_refl]. cbn [memberConsts allFields] in HK, HS.
    assert (HL : sameK (lengthConsts len)) by (intros k v v' I; apply HK; apply in_or_app; now left).
    assert (HC := fun k v v' I => HK k v v' (in_or_app _ _ k (or_intror I))). clear HK. cbv beta in HC.
    apply oeq_bind.
    + clear HL. induction cs as [|[l ms] cs IHc]; [apply oeq_refl|]. cbn [flat_map] in HC, HS. rewrite flat_map_app in HS.
      pose proof (Forall_inv IH) as F. cbn [ucase_members] in F.
      assert (Tl := IHc (Forall_inv_tail IH) (fun k v v' I => HS k v v' (in_or_app _ _ k (or_intror I))) (fun k v v' I => HC k v v' (in_or_app _ _ k (or_intror I)))).
      assert (HM : oeq (membersS r recv ms) (membersS r' recv ms)).
      { apply members_eq; auto.
        - intros k v v' I. apply HC. apply in_or_app; left. apply in_or_app; now right.
        - intros k v v' I. apply HS. apply in_or_app; now left. }
      destruct l as [l|].
      * apply oeq_bind; [apply conditional_eq; intros k v v' I; apply HC; apply in_or_app; left; apply in_or_app; now left|].
        intros c. apply oeq_bind; [exact HM|]. intros b. apply oeq_bind; [exact Tl|]. intros; apply oeq_refl.
      * apply oeq_bind; [exact HM|]. intros b. apply oeq_bind; [exact Tl|]. intros; apply oeq_refl.
    + intros c. destruct len as [c0|]; [now apply constrained_eq|apply oeq_refl].
Qed.

Lemma field_eq : forall n t, sameK (typeConsts t) -> oeq (fieldS camel r n t) (fieldS camel r' n t).
Proof. intros n t H. unfold fieldS. apply oeq_bind; [now apply tipe_eq|]. intros; apply oeq_refl. Qed.
Lemma memberDecl_eq : forall m, sameK (memberConsts m) -> oeq (memberDeclS camel r m) (memberDeclS camel r' m).
Proof.
  induction m as [nm t|u tag len cs IH| | |] using member_ind'; intros HK; cbn [memberDeclS]; try apply oeq_refl.
  - now apply field_eq.
  - cbn [memberConsts] in HK. assert (HC := fun k v v' I => HK k v v' (in_or_app _ _ k (or_intror I))). clear HK. cbv beta in HC.
    induction cs as [|[l ms] cs IHc]; [apply oeq_refl|]. cbn [flat_map] in HC. pose proof (Forall_inv IH) as F. cbn [ucase_members] in F.
    apply oeq_bind.
    + assert (HM : sameK (flat_map memberConsts ms)) by (intros k v v' I; apply HC; apply in_or_app; left; apply in_or_app; now right).
      clear - F HM. induction ms as [|m ms IH]; [apply oeq_refl|]. cbn [flat_map] in HM.
      assert (Tl := IH (Forall_inv_tail F) (fun k v v' I => HM k v v' (in_or_app _ _ k (or_intror I)))).
      assert (Hd := Forall_inv F (fun k v v' I => HM k v v' (in_or_app _ _ k (or_introl I)))).
      destruct m; try exact Tl; (apply oeq_bind; [exact Hd|]; intros a; apply oeq_bind; [exact Tl|]; intros; apply oeq_refl).
    + intros d. apply oeq_bind; [|intros; apply oeq_refl]. apply IHc; [eapply Forall_inv_tail; eauto|].
      intros k v v' I. apply HC. apply in_or_app; now right.
Qed.

(** The text of one declaration. *)
Definition declS (r : resolver) (d : decl) : outcome string :=
  match d with DContext c => contextS camel r c | DStruct s => structureS camel r s end.
Lemma decl_eq : forall d, sameK (constsOf d) -> sameS (structsOf d) -> oeq (declS r d) (declS r' d).
Proof.
  intros [c|s] HK HS; cbn [declS constsOf structsOf] in *.
  - unfold contextS. apply oeq_bind; [|intros; apply oeq_refl]. apply oeq_mapM. intros f I. apply field_eq. intros k v v' J. apply HK. apply in_flat_map. eauto.
  - unfold structureS. destruct (Extern s); [apply oeq_refl|]. apply oeq_bind; [apply oeq_refl|]. intros recv. apply oeq_bind.
    + unfold structDeclS. apply oeq_bind; [|intros; apply oeq_refl]. apply oeq_mapM. intros m I. apply memberDecl_eq. intros k v v' J. apply HK. apply in_flat_map. eauto.
    + intros d. apply oeq_bind; [|intros; apply oeq_refl]. unfold parseFuncS. apply oeq_bind; [|intros; apply oeq_refl].
      apply oeq_mapM. intros m I. apply member_eq.
      * intros k v v' J. apply HK. apply in_flat_map. eauto.
      * intros k v v' J. apply HS. apply in_flat_map in J as (f & A & B). apply in_flat_map. exists f. split; auto. apply in_flat_map. eauto.
Qed.
End Local.

(** The text of files is the texts of their declarations. *)
Lemma mapM_pairs : forall A B (f : A -> outcome B) l bs, mapM f l = Ok bs ->
  exists ps, map fst ps = l /\ map snd ps = bs /\ forall a b, In (a, b) ps -> f a = Ok b.
Proof.
  intros A B f. induction l as [|a l IH]; intros bs H; cbn [mapM] in H.
  - injection H as <-. exists []. split; auto. split; auto. intros ? ? [].
  - destruct (f a) as [b| | |] eqn:E; try discriminate. cbn [bind] in H. destruct (mapM f l) as [bs'| | |]; try discriminate. injection H as <-.
    destruct (IH bs' eq_refl) as (ps & <- & <- & P). exists ((a, b) :: ps). split; auto. split; auto.
    intros a0 b0 [X|I]; [now injection X as <- <-|auto].
Qed.
Lemma file_pieces : forall camel r f t, fileS camel r f = Ok t ->
  exists ps, map fst ps = declsOf f /\ t = join (map snd ps) /\ forall d s, In (d, s) ps -> declS camel r d = Ok s.
Proof.
  intros camel r f t H. unfold fileS in H. destruct (mapM (contextS camel r) (fcontexts f)) as [cs| | |] eqn:C; try discriminate. cbn [bind] in H.
  destruct (mapM (structureS camel r) (fstructs f)) as [ss| | |] eqn:S; try discriminate. cbn [bind] in H. injection H as <-.
  apply mapM_pairs in C as (pc & C1 & C2 & C3). apply mapM_pairs in S as (q & S1 & S2 & S3).
  exists (map (fun x => (DContext (fst x), snd x)) pc ++ map (fun x => (DStruct (fst x), snd x)) q). split; [|split].
  - unfold declsOf. rewrite map_app, !map_map, <- C1, <- S1, !map_map. reflexivity.
  - rewrite map_app, !map_map. cbn [fst snd].
    change (join [join cs; join ss] = join (map snd pc ++ map snd q)). rewrite join_app, C2, S2. cbn [join]. now rewrite append_nil.
  - intros d s I. apply in_app_or in I as [I|I]; apply in_map_iff in I as ([a b] & X & I); injection X as <- <-; cbn [declS fst snd]; auto.
Qed.
Lemma files_pieces : forall camel r fs ts, mapM (fileS camel r) fs = Ok ts ->
  exists ps, map fst ps = flat_map declsOf fs /\ join ts = join (map snd ps) /\ forall d s, In (d, s) ps -> declS camel r d = Ok s.
Proof.
  intros camel r. induction fs as [|f fs IH]; intros ts H; cbn [mapM] in H.
  - injection H as <-. exists []. split; auto. split; auto. intros ? ? [].
  - destruct (fileS camel r f) as [t| | |] eqn:E; try discriminate. cbn [bind] in H. destruct (mapM (fileS camel r) fs) as [ts'| | |]; try discriminate. injection H as <-.
    apply file_pieces in E as (p1 & A1 & A2 & A3). destruct (IH ts' eq_refl) as (p2 & B1 & B2 & B3). exists (p1 ++ p2). split; [|split].
    + rewrite map_app, A1, B1. reflexivity.
    + cbn [join]. rewrite map_app, join_app, <- A2, <- B2. reflexivity.
    + intros d s I. apply in_app_or in I as [I|I]; auto.
Qed.

(** Answers of the resolver are declarations. *)
Lemma addFiles_struct : forall fs os k r r' n s, all_valid os -> addFiles os k r fs = Ok r' -> Struct r' n = Some s ->
  Struct r n = Some s \/ In s (flat_map fstructs fs) /\ sname s = n.
Proof.
  induction fs as [|f fs IH]; intros os k r r' n s V H L; cbn [addFiles] in H.
  - injection H as <-. auto.
  - destruct (AddFile_spec (os k) r f (V k)) as [E A]. destruct (AddFile (os k) r f) as [r1 o]. cbn [fst snd] in *. subst o.
    destruct (addfile_outcome r f) as [[]|e|m|] eqn:O; try discriminate. specialize (A eq_refl). destruct A as (A1 & _).
    cbn [flat_map]. destruct (IH os (S k) r1 r' n s V H L) as [X|(I & N)].
    + rewrite A1 in X. destruct (find (fun a => String.eqb n (sname a)) (fstructs f)) as [a|] eqn:F; auto.
      injection X as <-. apply find_name_some in F as [Ia ->]. right. split; auto. apply in_or_app. now left.
    + right. split; auto. apply in_or_app. now right.
Qed.
Lemma struct_declared : forall os fs r n s, all_valid os -> NewResolverFiles os fs = Ok r -> Struct r n = Some s -> In s (flat_map fstructs fs) /\ sname s = n.
Proof. intros os fs r n s V H L. destruct (addFiles_struct fs os _ _ _ n s V H L) as [X|X]; [discriminate|exact X]. Qed.
Lemma constant_declared : forall os fs r k v, all_valid os -> NewResolverFiles os fs = Ok r -> Constant r k = Some v ->
  exists c, In c (flat_map fconstants fs) /\ kname c = k /\ kvalue c = v.
Proof.
  intros os fs r k v V H L. destruct (addFiles_answers fs os _ _ _ V H) as (_ & _ & A). apply A in L as [X|(f & c & I & J & N & W)]; [discriminate|].
  exists c. split; auto. apply in_flat_map. eauto.
Qed.
