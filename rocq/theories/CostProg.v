(** The cost of whole calls. *)
From Coq Require Import ZArith String List Bool Lia.
From Coq Require Import ZifyBool ZifyNat.
From Verif Require Import Base Ast IntervalsModel InspectModel InspectSpec InspectProofs GoLang GenModel GenDecode GenCheck
  GenSim GenSimBody GenSimProg WireSpec WireProofs PackageSpec PackageProofs PackageFacts GenSafe GoCost CostSpec CostDec CostBody CostInv.
Import ListNotations.
Open Scope string_scope.
Open Scope list_scope.
Open Scope Z_scope.

(* ---------- the cells of a struct ---------- *)

Section Cells.
Variable camel : string -> string.
Variable r : resolver.
Notation fc := (fun f : string * type => fieldCells r (snd f)).

Lemma tipe_cells : forall t g, tipe camel r t = Ok g -> cells g = fieldCells r t.
Proof.
  induction t as [sz c| | | |nm|b IH i|b IH l]; intros g H; cbn [tipe] in H; try (injection H as <-; reflexivity).
  - apply bind_ok in H as (k & Hk & H). apply bind_ok in H as (g' & Hg & H). injection H as <-.
    cbn [cells fieldCells]. rewrite (IH _ Hg). unfold countOf. apply integerOf_value in Hk. now rewrite Hk.
  - apply bind_ok in H as (g' & Hg & H). injection H as <-. reflexivity.
Qed.
Lemma cells_app : forall a b, cellsOf (a ++ b) = cellsOf a + cellsOf b.
Proof. induction a as [|x a IH]; intros b; [reflexivity|]. cbn [app cellsOf fold_right]. fold (cellsOf (a ++ b)) (cellsOf a). rewrite IH. lia. Qed.
Lemma sum_app : forall {A} (f : A -> Z) a b, sum f (a ++ b) = sum f a + sum f b.
Proof. induction a as [|x a IH]; intros b; [reflexivity|]. cbn [app]. rewrite !sum_cons, IH. lia. Qed.

Lemma memberDecl_cells : forall m ds, memberDecl camel r m = Ok ds -> cellsOf ds = sum fc (fieldsM m).
Proof.
  induction m as [nm t|u tag len cs IH| | |] using member_ind'; intros ds H.
  - cbn [memberDecl] in H. apply bind_ok in H as (g & Hg & H). injection H as <-. cbn. rewrite (tipe_cells _ _ Hg). lia.
  - cbn [memberDecl fieldsM] in *. revert ds H. induction cs as [|[l ms] cs IHcs]; intros ds H.
    + injection H as <-. reflexivity.
    + apply bind_ok in H as (d1 & H1 & H). apply bind_ok in H as (d2 & H2 & H). injection H as <-.
      specialize (IHcs (Forall_inv_tail IH) _ H2). cbn [flat_map]. rewrite cells_app, sum_app, IHcs. f_equal. clear IHcs H2.
      pose proof (Forall_inv IH) as F. cbn [ucase_members] in F. clear - F H1. revert d1 H1.
      induction ms as [|m ms IHms]; intros d1 H.
      * injection H as <-. reflexivity.
      * cbn [flat_map]. rewrite sum_app.
        assert (X : exists a b, (memberDecl camel r m = Ok a \/ ((m = MFail \/ m = MIgnore) /\ a = [])) /\
            (fix membersDecl (ms : list member) : outcome (list (string * gtype)) :=
                   match ms with
                   | [] => Ok []
                   | MFail :: ms' | MIgnore :: ms' => membersDecl ms'
                   | m :: ms' => a <- memberDecl camel r m ;; b <- membersDecl ms' ;; Ok (a ++ b)
                   end) ms = Ok b /\ d1 = a ++ b).
        { destruct m; try (exists [], d1; split; [right; auto|split; [exact H|reflexivity]]);
            apply bind_ok in H as (a & Ha & H); apply bind_ok in H as (b & Hb & H); injection H as <-;
            exists a, b; auto. }
        destruct X as (a & b & Ha & Hb & ->). rewrite cells_app, (IHms (Forall_inv_tail F) _ Hb). f_equal.
        destruct Ha as [Ha|[[->| ->] ->]]; [apply (Forall_inv F); auto|reflexivity|reflexivity].
  - injection H as <-. reflexivity.
  - discriminate.
  - discriminate.
Qed.
Lemma structDecl_cells : forall s ds, structDecl camel r s = Ok ds -> cellsOf ds = sum fc (flat_map fieldsM (members_of s)).
Proof.
  intros s ds H. unfold structDecl in H. apply bind_ok in H as (dss & H & E). injection E as <-.
  revert dss H. generalize (members_of s). induction l as [|m ms IH]; intros dss H; cbn [mapM] in H.
  - injection H as <-. reflexivity.
  - apply bind_ok in H as (d & Hd & H). apply bind_ok in H as (dss' & Hds & H). injection H as <-.
    cbn [concat flat_map]. now rewrite cells_app, sum_app, (IH _ Hds), (memberDecl_cells _ _ Hd).
Qed.
End Cells.

(* ---------- calls ---------- *)

Section Prog.
Variable mem : account.
Variable camel : string -> string.
Variable os : nat -> orders.
Variable fs : list file.
Variable r : resolver.
Variable p : program.
Hypothesis PK : package camel os fs r p.
Variable rank : string -> nat.
Hypothesis Hac : acyclic fs rank.
Hypothesis Het : elementsTake fs r.
Variable most : Z.
Hypothesis Hmost : 0 <= most.
Variable strict : bool.
Hypothesis Hmem : withMemory mem = true -> if strict then countsWithin fs r most else countsBelow fs r most.
Notation pres := (pk_res camel os fs r p PK).
Notation pgen := (pk_gen camel os fs r p PK).
Notation pchk := (pk_checked _ _ _ _ _ PK).


(** A checked struct. *)
Lemma struct_types : forall s cenv, In s (definedStructs fs) -> map fst cenv = scontexts s ->
  (forall nm t, In (nm, t) (flds s) -> simType camel r cenv (camel nm) t) /\
  (forall l, In l (flat_map caseLists (members_of s)) -> l <> []).
Proof.
  intros s cenv I MF. pose proof (check_struct camel r fs pchk s I) as CS. unfold checkStruct in CS.
  apply andb_true_iff in CS as [CS SC]. apply andb_true_iff in CS as [CS CX].
  apply andb_true_iff in CS as [CS ND]. apply andb_true_iff in CS as [CT CM]. apply nodupb_NoDup in ND.
  rewrite <- MF in CM.
  apply (members_good camel r cenv (members_of s)) with (k := @nil (string * Z)); auto.
  - apply Forall_forall. intros x _. apply member_good.
  - intros x y [].
Qed.
Lemma flds_all : forall s, flds s = flat_map allFields (members_of s).
Proof. reflexivity. Qed.

Lemma cells_pos : forall s, In s (definedStructs fs) -> 0 <= sum (fun f => fieldCells r (snd f)) (flds s).
Proof.
  intros s I. set (cenv := combine (scontexts s) (map (fun _ => VNil) (scontexts s))).
  assert (MF : map fst cenv = scontexts s) by (apply map_fst_combine; now rewrite map_length).
  destruct (struct_types s cenv I MF) as [T _].
  apply sum_nonneg. intros [f t] J. cbn [snd]. specialize (T f t J). clear - T.
  assert (B : forall b, checkBase r (map fst cenv) b = true -> fieldCells r b = 1) by (intros []; cbn; intros; try discriminate; reflexivity).
  destruct t; cbn [fieldCells]; try lia. destruct T as [T G]. rewrite (B _ T). unfold goodCount in G. unfold countOf.
  destruct (int_value (Constant r) _); [lia|discriminate].
Qed.

Lemma price_pos : forall k nm, 0 <= price most r k nm.
Proof.
  induction k as [|k IH]; intros nm; cbn [price]; [lia|]. destruct (Struct r nm) as [s|] eqn:HS; [|lia].
  unfold rateS. pose proof (blen_nonneg (scontexts s)).
  destruct (Extern s) eqn:HE.
  - assert (MN : members_of s = []) by (unfold Extern in HE; unfold members_of; destruct (smembers s); [discriminate|reflexivity]).
    rewrite MN. cbn [flat_map sum fold_right]. lia.
  - destruct (pres _ _ HS HE) as [_ I].
    set (cenv := combine (scontexts s) (map (fun _ => VNil) (scontexts s))).
    assert (MF : map fst cenv = scontexts s) by (apply map_fst_combine; now rewrite map_length).
    destruct (struct_types s cenv I MF) as [T _].
    assert (0 <= sum (rateM most r (price most r k)) (members_of s)).
    { eapply (sumM_pos camel r cenv); eauto. intros y Hy. exact Hy. }
    pose proof (cells_pos s I) as X. unfold flds in X. change (flat_map fieldsM) with (flat_map allFields) in X. lia.
Qed.

Lemma base_less : forall m cenv (dat : bytes) t c v c', eats (Constant r) (Struct r) t -> blen c < two63 ->
  decBase r (decCall camel r m) cenv (blen dat) t c = Ok (v, c') -> blen c' < blen c.
Proof.
  intros m cenv dat t c v c' E B H. apply (proj1 (eats_less camel r) t E m 0%nat cenv dat [] c v c' B).
  destruct t; cbn [decType decBase] in *; try exact H; discriminate.
Qed.

(** The sizes of integer fields. *)
Lemma good_sizes : forall s, In s (definedStructs fs) -> forall nm sz cst, In (nm, TInt sz cst) (flds s) -> goodSize sz = true.
Proof.
  intros s I nm sz cst J. destruct (PackageProofs.struct_types camel os fs r p PK s I nm _ J) as [k C].
  cbn [checkType checkBase] in C. unfold checkInt in C. now apply andb_true_iff in C.
Qed.
(** The contexts handed to a nested call. *)
Lemma nested_typed : forall ctxs cenv ns args, tctxs camel r ctxs cenv -> map fst cenv = ctxs -> ctxArgs cenv ns = Ok args ->
  tctxs camel r ns (combine ns args).
Proof.
  intros ctxs cenv ns args T MF H. destruct (ctxArgs_typed camel r ctxs cenv ns T) as (args' & E & TA).
  - revert args H. unfold ctxArgs. induction ns as [|y ns IH]; intros args H x Ix; [destruct Ix|]. cbn [mapM] in H.
    apply bind_ok in H as (v & Hv & H). apply bind_ok in H as (vs & Hvs & H). destruct Ix as [<-|Ix]; [|eauto].
    destruct (alookup y cenv) eqn:E; [|discriminate]. apply alookup_some_in in E. apply (in_map fst) in E. now rewrite MF in E.
  - rewrite H in E. injection E as <-. exact TA.
Qed.

(** What is known while a call of Parse runs. *)
Record calls (s : struct) (fs0 : amap value) (args : list value) (c : bytes) : Prop := {
  ca_len : List.length args = List.length (scontexts s);
  ca_shaped : shaped camel r (flds s) fs0;
  ca_typed : typed camel r (flds s) strict fs0;
  ca_ctxs : tctxs camel r (scontexts s) (combine (scontexts s) args);
  ca_okc : okc c }.
Lemma valid_calls : forall s fs0 data args, validCall camel fs r s fs0 data args -> (strict = true -> settled camel r s fs0) ->
  calls s fs0 args data.
Proof.
  intros s fs0 data args VC ST. assert (I : In s (definedStructs fs)) by (apply defines_in, VC). split.
  - exact (args_len camel r s args (vc_args _ _ _ _ _ _ _ VC)).
  - exact (recv_shaped camel os fs r p PK s fs0 I (vc_recv _ _ _ _ _ _ _ VC)).
  - apply recv_typed with (r := r); [apply VC|exact ST|]. apply (struct_nodup camel os fs r p PK s I).
  - apply (args_typed camel os fs r p PK). apply VC.
  - exact (vc_data _ _ _ _ _ _ _ VC).
Qed.
Lemma nested_calls : forall s' ds' cenv ctxs args' c', In s' (definedStructs fs) -> structDecl camel r s' = Ok ds' ->
  tctxs camel r ctxs cenv -> map fst cenv = ctxs -> ctxArgs cenv (scontexts s') = Ok args' -> okc c' -> calls s' (zeros ds') args' c'.
Proof.
  intros s' ds' cenv ctxs args' c' I' Hds' T MF HA O. split.
  - unfold ctxArgs in HA. now apply mapM_len in HA.
  - exact (struct_zeros camel r fs pchk s' ds' I' Hds').
  - rewrite (zeros_blank camel r s' ds' Hds'). apply blank_typed. apply (good_sizes s' I').
  - eapply nested_typed; eauto.
  - exact O.
Qed.
(** What the bodies of calls need. *)
Definition known (s : struct) (g : amap value) (c : bytes) : Prop := typed camel r (flds s) strict g /\ okc c.
Lemma known_part : forall s g c k, known s g c -> known s g (firstn k c).
Proof. intros s g c k [T O]. split; auto. now apply okc_first. Qed.
Lemma known_next : forall s m cenv (dat : bytes), In s (definedStructs fs) -> forall mb g c g' c', incl (fieldsM mb) (flds s) -> known s g c ->
  decMember camel r (onBytes (decCall camel r m)) m cenv (blen dat) mb g c = Ok (g', c') -> known s g' c'.
Proof.
  intros s m cenv dat I mb g c g' c' IN [T O] H. rewrite member_same in H; auto.
  2:{ intros *; apply call_okc. }
  split.
  - eapply member_inv; eauto.
    + intros *; apply call_okc.
    + apply (struct_nodup camel os fs r p PK s I).
    + apply (good_sizes s I).
  - eapply member_okc; eauto. intros *; apply call_okc.
Qed.
Lemma frugal_fields : forall s cenv, In s (definedStructs fs) -> tctxs camel r (scontexts s) cenv ->
  forall nm t, In (nm, t) (flds s) -> frugal mem camel r cenv most (known s) t.
Proof.
  intros s cenv I T nm t J. assert (DF : defines fs s) by (apply defines_in; auto).
  destruct t as [| | | | | |b [[x|x]|]]; cbn [frugal]; auto; try (eapply (Het s nm); eauto; fail).
  split; [|eapply (Het s nm); eauto]. intros M g c z [TG _] HR.
  eapply (count_below camel r strict fs s most cenv Hmost DF (pk_check camel os fs r p PK s I) (Hmem M) T); eauto.
Qed.
Lemma guarded_sim : forall m nm s cenv c, Struct r nm = Some s -> Extern s = false ->
  onBytes (decCall camel r m) nm cenv c = stuck \/
  exists fields args, ctxArgs cenv (scontexts s) = Ok args /\ alookup (camel nm) (ptypes p) = Some fields /\
    ressim (callMethod p m (VStruct (camel nm) (zeros fields)) (VBytes c) args) (onBytes (decCall camel r m) nm cenv c).
Proof.
  intros m nm s cenv c A B. unfold onBytes. destruct (forallb byteb c); [|left; reflexivity].
  exact (call_sim camel r fs p pgen pchk pres m nm s cenv c A B).
Qed.
Lemma guarded_left : forall m nm ce c v c', blen c < two63 -> onBytes (decCall camel r m) nm ce c = Ok (v, c') -> blen c' <= blen c.
Proof. intros m nm ce c v c' B H. apply onBytes_some in H. eapply decCall_left; eauto. Qed.
Lemma guarded_less : forall m cenv (dat : bytes) t c v c', eats (Constant r) (Struct r) t -> blen c < two63 ->
  decBase r (onBytes (decCall camel r m)) cenv (blen dat) t c = Ok (v, c') -> blen c' < blen c.
Proof.
  intros m cenv dat t c v c' E B H. apply (base_less m cenv dat t c v c' E B).
  destruct t; cbn [decBase] in *; auto. now apply onBytes_some in H.
Qed.

Definition priced (k : nat) : Prop := forall m s fs0 args c, In s (definedStructs fs) -> (rank (sname s) < k)%nat ->
  calls s fs0 args c ->
  decStruct camel r m s fs0 (combine (scontexts s) args) c <> stuck ->
  costMethod mem p m (VStruct (camel (sname s)) fs0) (VBytes c) args
    + sum (fun f => fieldCells r (snd f)) (flds s) + blen (scontexts s)
    <= price most r k (sname s) * (used (decStruct camel r m s fs0 (combine (scontexts s) args) c) c + 1).

Lemma struct_cost : forall k, priced k.
Proof.
  induction k as [|k IH]; intros m s fs0 args c I RK [LA SH TY TC OC] NS; [lia|].
  destruct (program_struct camel r fs p pgen pchk s I) as (ds & f & ct & Hds & Hf & Hct & Lt & Lm & Lc).
  assert (DF : defines fs s) by (apply defines_in; auto).
  assert (EX : Extern s = false) by apply DF. pose proof (proj2 OC) as B.
  assert (HS : Struct r (sname s) = Some s) by (apply (pk_struct camel os fs r p PK); auto).
  set (cenv := combine (scontexts s) args) in *.
  assert (MF : map fst cenv = scontexts s) by (apply map_fst_combine; auto).
  destruct (struct_types s cenv I MF) as [G1 G2].
  pose proof (check_struct camel r fs pchk s I) as CS. unfold checkStruct in CS.
  apply andb_true_iff in CS as [CS SC]. apply andb_true_iff in CS as [CS _].
  apply andb_true_iff in CS as [_ ND]. apply nodupb_NoDup in ND.
  assert (ND' : NoDup (map (fun f => camel (fst f)) (flds s))).
  { unfold flds. rewrite fieldNames_list, map_map in ND. exact ND. }
  cbn [price]. rewrite HS. unfold rateS. fold (flds s).
  change (flat_map allFields (members_of s)) with (flds s).
  set (CL := sum (fun f0 => fieldCells r (snd f0)) (flds s)).
  pose proof (blen_nonneg (scontexts s)) as XC. pose proof (blen_nonneg c) as BC.
  assert (CL0 : 0 <= CL).
  { unfold CL. apply cells_pos; auto. }
  assert (SM : 0 <= sum (rateM most r (price most r k)) (members_of s)).
  { eapply (sumM_pos camel r cenv); eauto using price_pos. intros y Hy. exact Hy. }
  destruct m as [|m].
  { cbn [costMethod decStruct used]. rewrite Lm. nia. }
  cbn [costMethod decStruct]. rewrite Lm.
  unfold parseFunc in Hf. apply bind_ok in Hf as (rv & Hrv & Hf). apply bind_ok in Hf as (ms & Hms & Hf). injection Hf as <-.
  unfold checkScope in SC. rewrite Hrv in SC.
  apply andb_true_iff in SC as [SC S4]. apply andb_true_iff in SC as [SC S3]. apply andb_true_iff in SC as [S1 S2].
  set (locs := "cur" :: "data" :: "err" :: flat_map localsM (members_of s)) in *.
  apply negb_true_iff, memb_notin in S1. apply negb_true_iff, memb_notin in S3.
  pose proof (proj1 (disjointb_spec _ _) S2) as S2'.
  assert (HC1 : forall x v, alookup x cenv = Some v -> ~ In x locs /\ x <> rv).
  { intros x v H. apply alookup_some_in in H. apply (in_map fst) in H. cbn [fst] in H. rewrite MF in H.
    split; [auto|]. intros ->. auto. }
  cbn [frecv fparams fbody].
  set (e0 := (rv, VStruct (camel (sname s)) fs0) :: ("data", VBytes c) :: combine (scontexts s) args).
  cbn [app]. rewrite costs_cons, decl_cost by reflexivity. cbn [exec eval esize].
  assert (ED : alookup "data" e0 = Some (VBytes c)).
  { unfold e0. cbn [alookup]. destruct (String.eqb_spec "data" rv) as [E|]; [|reflexivity].
    exfalso. apply S1. rewrite <- E. cbn; auto. }
  rewrite ED. cbn [lift]. rewrite costs_app.
  assert (M0 : menv cenv c rv (camel (sname s)) (("cur", VBytes c) :: e0) fs0 c).
  { assert (RC : rv <> "cur") by (intros E; apply S1; rewrite E; cbn; auto).
    split; [split|].
    - reflexivity.
    - cbn [alookup]. exact ED.
    - intros x v H. destruct (HC1 _ _ H) as [N1 N2]. unfold e0. cbn [alookup].
      destruct (String.eqb_spec x "cur") as [->|]; [exfalso; apply N1; cbn; auto|].
      destruct (String.eqb_spec x rv); [congruence|].
      destruct (String.eqb_spec x "data") as [->|]; [exfalso; apply N1; cbn; auto|]. exact H.
    - unfold e0. cbn [alookup]. destruct (String.eqb_spec rv "cur"); [congruence|].
      now rewrite String.eqb_refl. }
  assert (HCO : forall nm s' c' fields args', (rank nm < k)%nat -> Struct r nm = Some s' -> Extern s' = false ->
    ctxArgs cenv (scontexts s') = Ok args' -> alookup (camel nm) (ptypes p) = Some fields ->
    blen c' < two63 -> onBytes (decCall camel r m) nm cenv c' <> stuck ->
    costMethod mem p m (VStruct (camel nm) (zeros fields)) (VBytes c') args' + alloc mem (cellsOf fields) + blen (scontexts s')
      <= price most r k nm * (used (onBytes (decCall camel r m) nm cenv c') c' + 1)).
  { intros nm s' c' fields args' RN HS' HE' HA' HF' B' N'. apply onBytes_live in N' as N2. destruct N2 as [AB EB]. rewrite EB in *. clear EB.
    destruct (pres _ _ HS' HE') as [SN I'].
    destruct (program_struct camel r fs p pgen pchk s' I') as (ds' & f' & ct' & Hds' & _ & _ & Lt' & _ & _).
    rewrite SN in Lt'. rewrite HF' in Lt'. injection Lt' as ->.
    assert (DE : decCall camel r m nm cenv c' =
      ('(fs1, c1) <- decStruct camel r m s' (zeros ds') (combine (scontexts s') args') c' ;; Ok (VStruct (camel nm) fs1, c1))).
    { destruct m; cbn [decCall decStruct]; rewrite HS', Hds'; cbn [bind]; rewrite HA'; reflexivity. }
    rewrite DE in *.
    pose proof (IH m s' (zeros ds') args' c' I' ltac:(rewrite SN; auto) (nested_calls s' ds' cenv _ args' c' I' Hds' TC MF HA' (conj AB B')) (stuck_bind _ _ N')) as X.
    rewrite SN in X. unfold flds in X. rewrite <- (structDecl_cells camel r s' ds' Hds') in X.
    match goal with |- _ <= _ * (?u + 1) => replace u with (used (decStruct camel r m s' (zeros ds') (combine (scontexts s') args') c') c')
      by (destruct (decStruct camel r m s' (zeros ds') (combine (scontexts s') args') c') as [[]| | |]; reflexivity) end.
    assert (0 <= cellsOf ds') .
    { rewrite (structDecl_cells camel r s' ds' Hds'). apply cells_pos; auto. }
    assert (alloc mem (cellsOf ds') <= cellsOf ds') by (unfold alloc; destruct (withMemory mem); lia).
    lia. }
  pose proof (body_cost mem camel r (ptypes p) (callMethod p m) (costMethod mem p m) (onBytes (decCall camel r m)) m cenv c rv (camel (sname s)) locs
    ltac:(unfold locs; cbn; tauto) S1 HC1 (fun nm s' c' A B => guarded_sim m nm s' cenv c' A B)
    most (known s) Hmost (known_part s) (price most r k) (fun nm => (rank nm < k)%nat) (price_pos k) HCO (guarded_left m) (guarded_less m cenv c)
    (flds s) ND' G1 (frugal_fields s cenv I TC) (fun mb g c1 g' c2 IN KN _ D => known_next s m cenv c I mb g c1 g' c2 IN KN D)) as BS.
  specialize (BS ltac:(intros nm t x J Jx; pose proof (Hac s DF nm t x J Jx); cbv beta; lia)).
  specialize (BS (members_of s) ms (("cur", VBytes c) :: e0) fs0 c Hms).
  specialize (BS ltac:(intros y Hy; exact Hy) ltac:(intros y Hy; unfold locs; cbn; auto) G2 M0 SH (conj TY OC) B).
  rewrite members_same in BS by (auto; intros *; apply call_okc). specialize (BS NS).
  cbn [decStruct] in BS.
  assert (U0 : 0 <= used (decMembers camel r (decCall camel r m) m cenv (blen c) (members_of s) fs0 c) c).
  { apply used_nonneg. intros v' c' X. eapply decMembers_left; eauto. intros *; apply decCall_left. }
  set (U := used (decMembers camel r (decCall camel r m) m cenv (blen c) (members_of s) fs0 c) c) in *.
  assert (RT : forall e, costs mem (ptypes p) (callMethod p m) (costMethod mem p m) m [SReturn cur ENil] e <= 3).
  { intros e. rewrite costs_cons. change (cost mem (ptypes p) (callMethod p m) (costMethod mem p m) m (SReturn cur ENil) e) with 3.
    destruct (exec _ _ _ _ e) as [? []]; rewrite ?costs_nil; lia. }
  assert (FIN : costs mem (ptypes p) (callMethod p m) (costMethod mem p m) m ms (("cur", VBytes c) :: e0)
    + match execs (ptypes p) (callMethod p m) m ms (("cur", VBytes c) :: e0) with
      | (e1, SNext) => costs mem (ptypes p) (callMethod p m) (costMethod mem p m) m [SReturn cur ENil] e1
      | _ => 0 end <= sum (rateM most r (price most r k)) (members_of s) * (U + 1) + 3).
  { destruct (execs _ _ _ ms _) as [e1 []]; try specialize (RT e1); lia. }
  nia.
Qed.

(** x.Parse(data, contexts...). *)
Theorem parse_cost : forall n s fs0 data args, validCall camel fs r s fs0 data args -> (strict = true -> settled camel r s fs0) ->
  costMethod mem p n (VStruct (camel (sname s)) fs0) (VBytes data) args
    <= price most r (S (rank (sname s))) (sname s) * (used (decStruct camel r n s fs0 (contextsOf s args) data) data + 1).
Proof.
  intros n s fs0 data args VC ST.
  assert (I : In s (definedStructs fs)) by (apply defines_in, VC).
  assert (NS : decStruct camel r n s fs0 (contextsOf s args) data <> stuck).
  { intros E. apply (proj1 (never_stuck camel os fs r p PK s fs0 data args VC n)). now apply (run_panic camel os fs r p PK s fs0 data args VC). }
  pose proof (struct_cost (S (rank (sname s))) n s fs0 args data I ltac:(lia)
    (valid_calls s fs0 data args VC ST) NS) as X.
  unfold contextsOf. pose proof (blen_nonneg (scontexts s)).
  pose proof (cells_pos s I). unfold contextsOf in X. lia.
Qed.

Theorem parse_cost_all : forall n s fs0 data args, validCall camel fs r s fs0 data args -> (strict = true -> settled camel r s fs0) ->
  costMethod mem p n (VStruct (camel (sname s)) fs0) (VBytes data) args
    <= price most r (S (rank (sname s))) (sname s) * (blen data + 1).
Proof.
  intros n s fs0 data args VC ST. pose proof (parse_cost n s fs0 data args VC ST) as X.
  pose proof (price_pos (S (rank (sname s))) (sname s)) as P.
  assert (used (decStruct camel r n s fs0 (contextsOf s args) data) data <= blen data).
  { destruct (decStruct camel r n s fs0 (contextsOf s args) data) as [[v c']| | |]; cbn [used]; try lia. pose proof (blen_nonneg c'). lia. }
  nia.
Qed.
Theorem parse_cost_taken : forall n s fs0 data args fs1 rest, validCall camel fs r s fs0 data args -> (strict = true -> settled camel r s fs0) ->
  runParse camel p n s fs0 data args = (VStruct (camel (sname s)) fs1, SRet (VBytes rest) VNil) ->
  costMethod mem p n (VStruct (camel (sname s)) fs0) (VBytes data) args
    <= price most r (S (rank (sname s))) (sname s) * (blen data - blen rest + 1).
Proof.
  intros n s fs0 data args fs1 rest VC ST H. pose proof (parse_cost n s fs0 data args VC ST) as X.
  apply (run_success camel os fs r p PK s fs0 data args VC) in H. rewrite H in X. exact X.
Qed.

(** Parse leaves settled structs settled. *)
Lemma settled_typed : forall s g, typed camel r (flds s) true g -> settled camel r s g.
Proof. intros s g T nm sz l z I H. destruct (T _ _ _ _ I H) as [_ [->|A]]; auto. Qed.

(** NewT(data, contexts...). *)
Lemma args_work : forall e l, fold_right (fun x t => work mem (ptypes p) e x + t) 0 (map EVar l) = blen l.
Proof. clear. intros e. induction l as [|x l IH]; [reflexivity|]. cbn [map fold_right]. rewrite IH. unfold blen. cbn [List.length]. change (work mem (ptypes p) e (EVar x)) with 1. lia. Qed.

(** What NewT costs beyond the call of Parse. *)
Lemma ctor_cost : forall n s ds data args, In s (definedStructs fs) -> List.length args = List.length (scontexts s) ->
  structDecl camel r s = Ok ds ->
  costCtor mem p n (camel (sname s)) (VBytes data) args
    <= costMethod mem p n (VStruct (camel (sname s)) (zeros ds)) (VBytes data) args + alloc mem (cellsOf ds) + blen (scontexts s) + 20.
Proof.
  clear Hac Het Hmem rank strict. intros n s ds0 data args I LA Hds0.
  destruct (program_struct camel r fs p pgen pchk s I) as (ds & f & ct & Hds & Hf & Hct & Lt & Lm & Lc).
  rewrite Hds in Hds0. injection Hds0 as <-.
  set (CM := costMethod mem p n (VStruct (camel (sname s)) (zeros ds)) (VBytes data) args) in *.
  unfold costCtor. rewrite Lc. unfold ctorFunc in Hct. apply bind_ok in Hct as (rv & Hrv & Hct). injection Hct as <-.
  cbn [fbody fparams].
  pose proof (check_struct camel r fs pchk s I) as CS. unfold checkStruct in CS. apply andb_true_iff in CS as [CS SC].
  unfold checkScope in SC. rewrite Hrv in SC.
  apply andb_true_iff in SC as [SC S4]. apply andb_true_iff in SC as [SC S3]. apply andb_true_iff in SC as [S1 S2].
  apply negb_true_iff, memb_notin in S1. apply negb_true_iff, memb_notin in S3. apply nodupb_NoDup in S4.
  pose proof (proj1 (disjointb_spec _ _) S2) as S2'.
  assert (RD : rv <> "data") by (intros ->; apply S1; cbn; auto).
  rewrite costs_cons. change (cost mem (ptypes p) (callMethod p n) (costMethod mem p n) n (SDecl rv (ENew (camel (sname s)))) ?e) with
    (1 + (1 + match alookup (camel (sname s)) (ptypes p) with Some fs => alloc mem (cellsOf fs) | None => 0 end)).
  cbn [exec eval]. rewrite Lt. cbn [lift].
  set (e1 := (rv, VStruct (camel (sname s)) (zeros ds)) :: ("data", VBytes data) :: combine (scontexts s) args).
  rewrite costs_cons.
  assert (C2 : cost mem (ptypes p) (callMethod p n) (costMethod mem p n) n (SParseDecl "err" (LVar rv) (EVar "data") (map EVar (scontexts s))) e1 = 3 + blen (scontexts s) + CM).
  { cbn [cost lexpr]. rewrite args_work. cbn [eval].
    assert (A1 : alookup rv e1 = Some (VStruct (camel (sname s)) (zeros ds))) by (unfold e1; cbn [alookup]; now rewrite String.eqb_refl).
    assert (A2 : alookup "data" e1 = Some (VBytes data)) by (unfold e1; cbn [alookup]; destruct (String.eqb_spec "data" rv); [congruence|]; reflexivity).
    rewrite A1, A2.
    rewrite (mapM_vars (ptypes p) e1 (scontexts s) args S4 LA).
    2:{ intros x Ix. unfold e1. cbn [alookup]. destruct (String.eqb_spec x rv) as [->|]; [tauto|].
        destruct (String.eqb_spec x "data") as [->|]; auto. exfalso. apply (S2' _ Ix). cbn; auto. }
    fold CM. unfold work. cbn [esize extra]. lia. }
  rewrite C2.
  assert (T : forall e, costs mem (ptypes p) (callMethod p n) (costMethod mem p n) n
     [SIf (ENotNil (EVar "err")) [SReturn ENil (EVar "err")]; SReturn (EVar rv) ENil] e <= 10).
  { intros e.
    assert (R : forall a b e', esize a = 1 -> esize b = 1 -> extra mem (ptypes p) e' a = 0 -> extra mem (ptypes p) e' b = 0 ->
      costs mem (ptypes p) (callMethod p n) (costMethod mem p n) n [SReturn a b] e' <= 3).
    { intros a b e' A1 A2 A3 A4. rewrite costs_cons. cbn [cost]. unfold work. rewrite A1, A2, A3, A4.
      destruct (exec _ _ _ _ e') as [? []]; rewrite ?costs_nil; lia. }
    rewrite costs_cons.
    assert (C1 : cost mem (ptypes p) (callMethod p n) (costMethod mem p n) n (SIf (ENotNil (EVar "err")) [SReturn ENil (EVar "err")]) e <= 6).
    { rewrite cost_if. unfold work. cbn [esize extra]. pose proof (R ENil (EVar "err") e eq_refl eq_refl eq_refl eq_refl).
      destruct (eval _ _ _) as [[| | | | | | |[]]| | |]; lia. }
    pose proof (R (EVar rv) ENil) as R2.
    destruct (exec _ _ _ _ e) as [e' []]; try specialize (R2 e' eq_refl eq_refl eq_refl eq_refl); lia. }
  destruct (exec _ _ _ (SParseDecl _ _ _ _) e1) as [e2 []]; try specialize (T e2); lia.
Qed.
Theorem new_cost : forall n s data args, validCall camel fs r s (blank camel (Constant r) s) data args ->
  costCtor mem p n (camel (sname s)) (VBytes data) args
    <= (price most r (S (rank (sname s))) (sname s) + 20) * (blen data + 1).
Proof.
  intros n s data args VC.
  assert (I : In s (definedStructs fs)) by (apply defines_in, VC).
  destruct (program_struct camel r fs p pgen pchk s I) as (ds & f & ct & Hds & Hf & Hct & Lt & Lm & Lc).
  pose proof (args_len camel r s args (vc_args _ _ _ _ _ _ _ VC)) as LA.
  assert (NS : decStruct camel r n s (blank camel (Constant r) s) (contextsOf s args) data <> stuck).
  { intros E. apply (proj1 (never_stuck camel os fs r p PK s _ data args VC n)). now apply (run_panic camel os fs r p PK s _ data args VC). }
  pose proof (struct_cost (S (rank (sname s))) n s _ args data I ltac:(lia)
    (valid_calls s _ data args VC (fun _ => blank_settled camel r s)) NS) as X.
  assert (U : used (decStruct camel r n s (blank camel (Constant r) s) (contextsOf s args) data) data <= blen data).
  { destruct (decStruct camel r n s (blank camel (Constant r) s) (contextsOf s args) data) as [[v c']| | |]; cbn [used]; try lia. pose proof (blen_nonneg c'). lia. }
  pose proof (price_pos (S (rank (sname s))) (sname s)) as P0. unfold contextsOf in U.
  pose proof (cells_pos s I) as CP.
  assert (BD := blen_nonneg data).
  rewrite <- (zeros_blank camel r s ds Hds) in *.
  assert (AL : alloc mem (cellsOf ds) <= sum (fun f => fieldCells r (snd f)) (flds s)).
  { unfold flds in *. rewrite <- (structDecl_cells camel r s ds Hds) in *. unfold alloc. destruct (withMemory mem); lia. }
  set (Q := price most r (S (rank (sname s))) (sname s)) in *.
  set (CL := sum (fun f => fieldCells r (snd f)) (flds s)) in *.
  set (CM := costMethod mem p n (VStruct (camel (sname s)) (zeros ds)) (VBytes data) args) in *.
  assert (X' : CM + CL + blen (scontexts s) <= Q * (blen data + 1)) by nia.
  enough (costCtor mem p n (camel (sname s)) (VBytes data) args <= CM + alloc mem (cellsOf ds) + blen (scontexts s) + 20) by nia.
  apply ctor_cost; auto.
Qed.
End Prog.

Theorem parse_settled : forall camel os fs r p, package camel os fs r p ->
  forall s fs0 data args n fs1 rest, validCall camel fs r s fs0 data args -> settled camel r s fs0 ->
  runParse camel p n s fs0 data args = (VStruct (camel (sname s)) fs1, SRet (VBytes rest) VNil) -> settled camel r s fs1.
Proof.
  intros camel os fs r p PK s fs0 data args n fs1 rest VC ST H.
  assert (I : In s (definedStructs fs)) by (apply defines_in, VC).
  apply (run_success camel os fs r p PK s fs0 data args VC) in H.
  destruct (valid_calls camel os fs r p PK true s fs0 data args VC (fun _ => ST)) as [_ _ TY _ OC].
  destruct n as [|n]; cbn [decStruct] in H; [discriminate|].
  apply settled_typed. eapply (members_inv camel r (decCall camel r n) n _ data) with (ms := members_of s); eauto.
  - intros *; apply call_okc.
  - apply Forall_forall. intros m _. eapply member_inv.
    + intros *; apply call_okc.
    + apply (struct_nodup camel os fs r p PK s I).
    + apply (good_sizes camel os fs r p PK s I).
  - intros y Hy. exact Hy.
Qed.
