(** From calls of the generated package to the decoder. *)
From Coq Require Import ZArith String List Bool Lia ZifyBool ZifyNat.
From Verif Require Import Base Ast IntervalsModel InspectModel InspectSpec InspectProofs BranchProofs GoLang GenModel GenDecode GenCheck
  GenSim GenSimBody GenSimProg WireSpec WireProofs WireComplete GenTerm GenSafe PackageSpec.
Import ListNotations.
Open Scope string_scope.
Open Scope list_scope.
Open Scope Z_scope.
Ltac Zify.zify_post_hook ::= Z.div_mod_to_equations.

Section Pack.
Variable camel : string -> string.
Variable os : nat -> orders.
Variable fs : list file.
Variable r : resolver.
Variable p : program.
Hypothesis PK : package camel os fs r p.
Notation cv := (Constant r).
Notation sv := (Struct r).

Lemma defines_in : forall s, defines fs s <-> In s (definedStructs fs).
Proof.
  intros s. unfold defines, definedStructs. rewrite filter_In, in_flat_map. destruct (Extern s); cbn; intuition congruence.
Qed.

Lemma pk_gen : genProgram camel r fs = Ok p.
Proof.
  destruct PK as [V R G C]. unfold Marshallers in G. rewrite R in G. exact G.
Qed.

Lemma pk_struct : forall nm s, Extern s = false -> (sv nm = Some s <-> In s (definedStructs fs) /\ sname s = nm).
Proof.
  intros nm s E. destruct PK as [V R G C]. destruct (addFiles_answers _ _ _ _ _ V R) as (A1 & _ & _).
  rewrite (A1 nm s E). rewrite <- defines_in. unfold defines. split.
  - intros [H|(f & I & J & N)]; [discriminate|]. split; auto. split; eauto.
  - intros ((_ & f & I & J) & N). right. eauto.
Qed.
Lemma pk_res : forall nm s, sv nm = Some s -> Extern s = false -> sname s = nm /\ In s (definedStructs fs).
Proof. intros nm s H E. apply (pk_struct nm s E) in H. tauto. Qed.

Lemma pk_context : forall x c, Context r x = Some c -> checkContext camel r c = true /\ cname c = x.
Proof.
  intros x c H. destruct PK as [V R G C]. destruct (addFiles_answers _ _ _ _ _ V R) as (_ & A2 & _).
  apply A2 in H as [H|(f & I & J & N)]; [discriminate|]. split; auto.
  unfold checkFiles in C. apply andb_true_iff in C as [C _]. apply andb_true_iff in C as [_ C].
  rewrite forallb_forall in C. apply C. apply in_flat_map. eauto.
Qed.

Lemma pk_check : forall s, In s (definedStructs fs) -> checkStruct camel r s = true.
Proof. intros s I. apply (check_struct camel r fs); auto. apply PK. Qed.

(* ---------- arguments ---------- *)

Lemma forall2_lookup : forall (cm : list (string * type)) (cf : amap value), Forall2 (fun f kv => fst kv = camel (fst f) /\ forall sz cst, snd f = TInt sz cst -> uintN sz (snd kv)) cm cf ->
  NoDup (map (fun f => camel (fst f)) cm) ->
  forall n sz cst, In (n, TInt sz cst) cm -> exists z, alookup (camel n) cf = Some (VInt z) /\ 0 <= z < 2 ^ sz.
Proof.
  induction 1 as [|[f t] [k v] cm cf [E T] F IH]; intros ND n sz cst I; [destruct I|]. cbn [fst snd] in *. subst k.
  cbn [map] in ND. inversion ND as [|? ? NI ND']; subst. cbn [alookup].
  destruct (String.eqb_spec (camel n) (camel f)) as [E|N].
  - destruct I as [X|I].
    + injection X as -> ->. destruct (T sz cst eq_refl) as (z & -> & B). eauto.
    + exfalso. apply NI. cbn. rewrite <- E. apply (in_map (fun f => camel (fst f)) cm (n, TInt sz cst) I).
  - destruct I as [X|I]; [congruence|]. eauto.
Qed.

Lemma args_typed : forall s args, ctxValues camel r s args -> tctxs camel r (scontexts s) (combine (scontexts s) args).
Proof.
  intros s args H. unfold ctxValues in H. induction H as [|x v xs vs (c & EC & cf & -> & FC) F IH].
  - intros x [].
  - intros y Hy. cbn [combine alookup]. destruct (String.eqb_spec y x) as [->|N].
    + eexists. split; [reflexivity|]. eexists _, cf. split; [reflexivity|]. intros c' EC' n sz cst FF.
      assert (c' = c) by congruence. subst c'. destruct (pk_context _ _ EC) as [CC _].
      unfold checkContext in CC. apply andb_true_iff in CC as [_ CC]. apply nodupb_NoDup in CC.
      eapply forall2_lookup; eauto. eapply findIntField_in; eauto.
    + destruct Hy as [->|Hy]; [congruence|]. auto.
Qed.

Lemma size_word : forall sz z, goodSize sz = true -> 0 <= z < 2 ^ sz -> - two63 <= z < two64.
Proof.
  intros sz z G B. assert (2 ^ sz <= 2 ^ 64) by (apply Z.pow_le_mono_r; unfold goodSize in G; lia).
  change (2 ^ 64) with two64 in *. unfold two63, two64 in *. lia.
Qed.

Lemma args_word : forall s args, ctxValues camel r s args -> wordc (combine (scontexts s) args).
Proof.
  intros s args H. unfold ctxValues in H. induction H as [|x v xs vs (c & EC & cf & -> & FC) F IH]; intros y ty g Hy.
  - discriminate.
  - cbn [combine alookup] in Hy. destruct (String.eqb_spec y x) as [->|N]; [|eapply IH; eauto].
    injection Hy as <- <-. destruct (pk_context _ _ EC) as [CC _].
    unfold checkContext in CC. apply andb_true_iff in CC as [CC _]. apply andb_true_iff in CC as [CC _].
    clear - FC CC. induction FC as [|[f t] [k v] cm cf [E T] F IH]; intros y w Hy; [discriminate|].
    cbn [forallb fst snd] in *. apply andb_true_iff in CC as [C1 C2]. cbn [alookup] in Hy.
    destruct (String.eqb y k); [|eapply IH; eauto]. injection Hy as <-. destruct t as [sz cst| | | | | |]; try discriminate.
    destruct (T sz cst eq_refl) as (z & -> & B). cbn. unfold checkInt in C1. apply andb_true_iff in C1 as [C1 _].
    eapply size_word; eauto.
Qed.

Lemma args_len : forall s args, ctxValues camel r s args -> List.length args = List.length (scontexts s).
Proof. intros s args H. induction H; cbn; auto. Qed.

(* ---------- receivers ---------- *)

Lemma struct_nodup : forall s, In s (definedStructs fs) -> NoDup (map (fun f => camel (fst f)) (flat_map allFields (members_of s))).
Proof.
  intros s I. pose proof (pk_check s I) as CS. unfold checkStruct in CS.
  apply andb_true_iff in CS as [CS _]. apply andb_true_iff in CS as [CS _]. apply andb_true_iff in CS as [_ CS].
  apply nodupb_NoDup in CS. rewrite fieldNames_list, map_map in CS. exact CS.
Qed.

Lemma goStruct_lookup : forall s fs0, goStruct camel r s fs0 -> NoDup (map (fun f => camel (fst f)) (flat_map allFields (members_of s))) ->
  forall nm t, In (nm, t) (flat_map allFields (members_of s)) -> exists v, alookup (camel nm) fs0 = Some v /\ goValue camel r t v.
Proof.
  intros s fs0 H. unfold goStruct in H. induction H as [|[f t'] [k v] cm cf [E T] F IH]; intros ND n t I; [destruct I|].
  cbn [fst snd] in *. subst k. cbn [map] in ND. inversion ND as [|? ? NI ND']; subst. cbn [alookup].
  destruct (String.eqb_spec (camel n) (camel f)) as [E|N].
  - destruct I as [X|I].
    + injection X as -> ->. eauto.
    + exfalso. apply NI. cbn. rewrite <- E. apply (in_map (fun f => camel (fst f)) cm (n, t) I).
  - destruct I as [X|I]; [congruence|]. eauto.
Qed.

Lemma recv_shaped : forall s fs0, In s (definedStructs fs) -> goStruct camel r s fs0 -> shaped camel r (flds s) fs0.
Proof.
  intros s fs0 I H nm t J. destruct (goStruct_lookup s fs0 H (struct_nodup s I) nm t J) as (v & E & G). exists v. split; auto.
  destruct t; cbn [shapeOf]; auto. cbn in G. destruct G as (vs & -> & EV). exists vs. split; auto. intros k Hk.
  apply integerOf_value in Hk. congruence.
Qed.
Lemma recv_has : forall s fs0, In s (definedStructs fs) -> goStruct camel r s fs0 -> hasF camel (flat_map allFields (members_of s)) fs0.
Proof.
  intros s fs0 I H nm t J. destruct (goStruct_lookup s fs0 H (struct_nodup s I) nm t J) as (v & E & G). eauto.
Qed.
Lemma checkMembers_in : forall ctxs ms k m, checkMembers r ctxs k ms = true -> In m ms -> exists k', checkMember r ctxs k' m = true.
Proof.
  induction ms as [|a ms IH]; intros k m C I; [destruct I|]. cbn [checkMembers] in C. apply andb_true_iff in C as [C1 C2].
  destruct I as [->|I]; eauto.
Qed.
(** Types of all fields were checked. *)
Lemma member_types : forall m ctxs k, checkMember r ctxs k m = true -> forall nm t, In (nm, t) (allFields m) ->
  exists k', checkType r ctxs k' t = true.
Proof.
  induction m as [nm t|u tag len cs IH| | |] using member_ind'; intros ctxs k C nm' t' J; cbn [allFields] in J; try contradiction.
  - destruct J as [E|[]]. injection E as <- <-. eauto.
  - destruct (check_union _ _ _ _ _ _ _ C) as (_ & _ & CC). apply in_flat_map in J as ([l ms] & Ic & J).
    destruct (CC _ Ic) as [_ CM']. rewrite Forall_forall in IH. specialize (IH _ Ic). cbn in *.
    apply in_flat_map in J as (m & Im & J). destruct (checkMembers_in _ _ _ _ CM' Im) as [k' C'].
    rewrite Forall_forall in IH. eapply IH; eauto.
Qed.
Lemma struct_types : forall s, In s (definedStructs fs) -> forall nm t, In (nm, t) (flat_map allFields (members_of s)) ->
  exists k, checkType r (scontexts s) k t = true.
Proof.
  intros s I nm t J. pose proof (checked_members camel r s (pk_check s I)) as CM. apply in_flat_map in J as (m & Im & J).
  destruct (checkMembers_in _ _ _ _ CM Im) as [k' C']. eapply member_types; eauto.
Qed.
Lemma recv_word : forall s fs0, In s (definedStructs fs) -> goStruct camel r s fs0 -> wordf fs0.
Proof.
  intros s fs0 I H. pose proof (struct_types s I) as ST. unfold goStruct in H.
  induction H as [|[f t] [k v] cm cf [E T] F IH]; intros y w Hy; [discriminate|]. cbn [fst snd alookup] in *.
  destruct (String.eqb y k).
  - injection Hy as <-. destruct (ST f t (or_introl eq_refl)) as [k' C].
    destruct t as [sz cst| | | |nm|b i|b o]; cbn [goValue checkType checkBase] in *.
    + destruct T as (z & -> & B). unfold checkInt in C. apply andb_true_iff in C as [C _]. cbn. eapply size_word; eauto.
    + destruct T as (z & -> & B). cbn. eapply (size_word 8); eauto.
    + destruct T as (z & -> & B). cbn. unfold two63, two64 in *. lia.
    + destruct T as (z & ->). exact Logic.I.
    + destruct T as [->|(z & ->)]; exact Logic.I.
    + destruct T as (z & -> & _). exact Logic.I.
    + destruct T as [->|(z & ->)]; exact Logic.I.
  - eapply IH; eauto. intros. eapply ST. right. eauto.
Qed.

(* ---------- runs ---------- *)

Notation T s := (camel (sname s)).
Definition cenvOf (s : struct) (args : list value) : amap value := combine (scontexts s) args.

(** How a call ends, in terms of the decoder. *)
Definition ends (x : value * sres) (ty : string) (o : outcome (amap value * bytes)) : Prop :=
  match o with
  | Ok (fs1, c1) => x = (VStruct ty fs1, SRet (VBytes c1) VNil)
  | Err m => exists v, x = (v, SRet VNil (VErr m))
  | Panic m => exists v, x = (v, SPanic m)
  | OutOfFuel => exists v, x = (v, SFuel)
  end.

Lemma safe_run : forall n s fs0 data args, In s (definedStructs fs) -> ctxValues camel r s args -> goStruct camel r s fs0 -> goBytes data ->
  sat False (fun _ => True) (decStruct camel r n s fs0 (cenvOf s args) data).
Proof.
  intros n s fs0 data args I CV GS GB. eapply sat_weak.
  - apply (struct_safe camel r False) with (c := data); auto.
    + intros nm s' HS HE. destruct (pk_res _ _ HS HE) as [_ ID]. split; [now apply pk_check|tauto].
    + now apply pk_check.
    + tauto.
    + now apply args_typed.
    + now apply recv_has.
  - auto.
Qed.

Theorem parse_run : forall n s fs0 data args, In s (definedStructs fs) -> ctxValues camel r s args -> goStruct camel r s fs0 -> goBytes data ->
  ends (runParse camel p n s fs0 data args) (T s) (decStruct camel r n s fs0 (cenvOf s args) data).
Proof.
  intros n s fs0 data args I CV GS GB.
  pose proof (method_sim camel r fs p pk_gen (pk_checked _ _ _ _ _ PK) pk_res n s args fs0 data I (args_len _ _ CV) (recv_shaped _ _ I GS)) as S.
  pose proof (safe_run n s fs0 data args I CV GS GB) as SF. fold (cenvOf s args) in S. fold (runParse camel p n s fs0 data args) in S.
  destruct (decStruct camel r n s fs0 (cenvOf s args) data) as [[fs1 c1]|m|m|]; cbn in *; auto.
  destruct S as [->|S]; auto. destruct SF; congruence.
Qed.

Lemma blank_goStruct : forall s, In s (definedStructs fs) -> goStruct camel r s (blank camel cv s).
Proof.
  intros s I. unfold goStruct, blank. pose proof (struct_types s I) as ST.
  induction (flat_map allFields (members_of s)) as [|[f t] l IH]; cbn [map]; constructor.
  - cbn. split; auto. destruct (ST f t (or_introl eq_refl)) as [k C].
    destruct t as [sz cst| | | |nm|b i|b o]; cbn [goValue blankOf checkType checkBase] in *; eauto.
    + exists 0. split; auto. split; [lia|]. apply Z.pow_pos_nonneg; [lia|]. unfold checkInt, goodSize in C. lia.
    + exists 0. split; auto. lia.
    + exists 0. split; auto. unfold two63. lia.
    + apply andb_true_iff in C as [_ C]. unfold goodCount in C. destruct (int_value cv i) as [z|]; [|discriminate].
      eexists. split; [reflexivity|]. f_equal. unfold blen. rewrite repeat_length. lia.
  - apply IH. intros. eapply ST. right. eauto.
Qed.

Lemma mapM_vars : forall types (e : env) xs vs, NoDup xs -> List.length vs = List.length xs ->
  (forall x, In x xs -> alookup x e = alookup x (combine xs vs)) -> mapM (eval types e) (map EVar xs) = Ok vs.
Proof.
  intros types e xs vs ND L H.
  assert (X : forall pre, (forall x, In x xs -> ~ In x (map fst pre)) -> (forall x, In x xs -> alookup x e = alookup x (pre ++ combine xs vs)) -> mapM (eval types e) (map EVar xs) = Ok vs).
  { clear H. revert vs L ND. induction xs as [|x xs IH]; intros [|v vs] L ND pre NI H; cbn in L; try discriminate; [reflexivity|].
    inversion ND as [|? ? N ND']; subst. cbn [map mapM eval]. rewrite (H x) by (now left).
    rewrite alookup_app. assert (E : alookup x pre = None) by (apply alookup_none_keys; apply NI; now left).
    rewrite E. cbn [combine alookup]. rewrite String.eqb_refl. cbn [bind].
    rewrite (IH vs ltac:(lia) ND' (pre ++ [(x, v)])); [reflexivity| |].
    - intros y Hy. rewrite map_app, in_app_iff. cbn. intros [J|[->|[]]]; [|tauto]. apply (NI y); [now right|auto].
    - intros y Hy. rewrite <- app_assoc. cbn [app]. apply H. now right. }
  apply (X []); auto.
Qed.

Definition newEnds (x : sres) (ty : string) (o : outcome (amap value * bytes)) : Prop :=
  match o with
  | Ok (fs1, c1) => x = SRet (VStruct ty fs1) VNil
  | Err m => x = SRet VNil (VErr m)
  | Panic m => x = SPanic m
  | OutOfFuel => x = SFuel
  end.

Theorem new_run : forall n s data args, In s (definedStructs fs) -> ctxValues camel r s args -> goBytes data ->
  newEnds (runNew camel p n s data args) (T s) (decStruct camel r n s (blank camel cv s) (cenvOf s args) data).
Proof.
  intros n s data args I CV GB. pose proof (parse_run n s _ data args I CV (blank_goStruct s I) GB) as E.
  destruct (program_struct camel r fs p pk_gen (pk_checked _ _ _ _ _ PK) s I) as (ds & f & ct & Hds & Hf & Hct & Lt & Lm & Lc).
  unfold runNew, callCtor. rewrite Lc. unfold ctorFunc in Hct. apply bind_ok in Hct as (rv & Hrv & Hct). injection Hct as <-.
  cbn [fbody fparams]. pose proof (pk_check s I) as CS. unfold checkStruct in CS. apply andb_true_iff in CS as [CS SC].
  unfold checkScope in SC. rewrite Hrv in SC.
  apply andb_true_iff in SC as [SC S4]. apply andb_true_iff in SC as [SC S3]. apply andb_true_iff in SC as [S1 S2].
  apply negb_true_iff, memb_notin in S1. apply negb_true_iff, memb_notin in S3. apply nodupb_NoDup in S4.
  pose proof (proj1 (disjointb_spec _ _) S2) as S2'.
  assert (RD : rv <> "data") by (intros ->; apply S1; cbn; auto).
  assert (RE : rv <> "err") by (intros ->; apply S1; cbn; auto).
  rewrite execs_cons. cbn [exec eval]. rewrite Lt. cbn [lift]. rewrite execs_cons. cbn [exec lexpr eval alookup].
  rewrite String.eqb_refl. cbn [lift].
  destruct (String.eqb_spec "data" rv); [congruence|]. rewrite String.eqb_refl. cbn [lift].
  rewrite (mapM_vars _ _ (scontexts s) args S4 (args_len _ _ CV)).
  2:{ intros x Ix. cbn [alookup]. destruct (String.eqb_spec x rv) as [->|]; [tauto|].
      destruct (String.eqb_spec x "data") as [->|]; auto. exfalso. apply (S2' _ Ix). cbn; auto. }
  cbn [lift]. rewrite <- (zeros_blank camel r s ds Hds) in *. unfold runParse in E.
  destruct (callMethod p n (VStruct (T s) (zeros ds)) (VBytes data) args) as [v res].
  destruct (decStruct camel r n s (zeros ds) (cenvOf s args) data) as [[fs1 c1]|m|m|]; cbn [ends newEnds] in *.
  - injection E as -> ->. cbn [store alookup]. rewrite String.eqb_refl. cbn [lift assign]. rewrite String.eqb_refl.
    rewrite execs_cons. cbn [exec eval alookup]. rewrite String.eqb_refl. cbn [bind lift].
    rewrite execs_cons. cbn [exec eval alookup]. destruct (String.eqb_spec rv "err"); [congruence|]. rewrite String.eqb_refl. reflexivity.
  - destruct E as [v' E]. injection E as -> ->. cbn [store alookup]. rewrite String.eqb_refl. cbn [lift assign]. rewrite String.eqb_refl.
    rewrite execs_cons. cbn [exec eval alookup]. rewrite String.eqb_refl. cbn [bind lift].
    reflexivity.
  - destruct E as [v' E]. injection E as -> ->. reflexivity.
  - destruct E as [v' E]. injection E as -> ->. reflexivity.
Qed.
End Pack.
