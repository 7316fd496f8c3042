(** Values of the Go types of a package are values of the types declared, and calls
    keep them so. *)
From Coq Require Import ZArith String List Bool Lia ZifyBool ZifyNat.
From Verif Require Import Base Ast IntervalsModel InspectModel InspectSpec InspectProofs GoLang GenModel GenCheck GenSim GenSimBody GenSimProg WireSpec PackageSpec PackageProofs CompileProofs CompileProg
  TypedSpec TypedExec TypedGen.
From Verif Require MemWordGen WireProofs.
Import ListNotations.
Open Scope string_scope.
Open Scope list_scope.
Open Scope Z_scope.

Section ValueInd.
Variable P : value -> Prop.
Hypothesis Pint : forall z, P (VInt z).
Hypothesis Pstr : forall s, P (VStr s).
Hypothesis Pbytes : forall b, P (VBytes b).
Hypothesis Plist : forall l, Forall P l -> P (VList l).
Hypothesis Pstruct : forall ty fs, Forall (fun f => P (snd f)) fs -> P (VStruct ty fs).
Hypothesis Pnil : P VNil.
Hypothesis Perr : forall m, P (VErr m).
Hypothesis Pbool : forall b, P (VBool b).
Fixpoint value_deep (v : value) : P v :=
  match v with
  | VInt z => Pint z
  | VStr s => Pstr s
  | VBytes b => Pbytes b
  | VList l => Plist l ((fix go (l : list value) : Forall P l := match l with [] => Forall_nil P | x :: l' => Forall_cons x (value_deep x) (go l') end) l)
  | VStruct ty fs => Pstruct ty fs ((fix go (l : amap value) : Forall (fun f => P (snd f)) l :=
      match l with [] => Forall_nil _ | x :: l' => Forall_cons x (value_deep (snd x)) (go l') end) fs)
  | VNil => Pnil
  | VErr m => Perr m
  | VBool b => Pbool b
  end.
End ValueInd.

Section Package.
Variable camel : string -> string.
Variable os : nat -> orders.
Variable fs : list file.
Variable r : resolver.
Variable p : program.
Hypothesis PK : package camel os fs r p.

Lemma fields_pair : forall (l : list (string * type)) (ds : list (string * gtype)), map fst ds = map camel (map fst l) ->
  (forall nm t, In (nm, t) l -> exists g, tipe camel r t = Ok g /\ In (camel nm, g) ds) -> NoDup (map fst ds) ->
  Forall2 (fun f d => fst d = camel (fst f) /\ tipe camel r (snd f) = Ok (snd d)) l ds.
Proof.
  induction l as [|[nm t] l IH]; intros [|[f g] ds] E H ND; try discriminate; [constructor|]. cbn [map fst] in *. injection E as -> E. inversion ND as [|? ? NI ND']; subst. constructor.
  - cbn [fst snd]. split; auto. destruct (H nm t (or_introl eq_refl)) as (g' & T & [J|J]); [now injection J as <-|]. apply (in_map fst) in J. contradiction.
  - apply IH; auto. intros nm' t' I. destruct (H nm' t' (or_intror I)) as (g' & T & [J|J]); [|eauto]. injection J as J _. exfalso. apply NI. rewrite E, J. apply in_map. now apply (in_map fst) in I.
Qed.
Lemma struct_fields : forall s, In s (definedStructs fs) -> exists ds, alookup (camel (sname s)) (ptypes p) = Some ds /\
  Forall2 (fun f d => fst d = camel (fst f) /\ tipe camel r (snd f) = Ok (snd d)) (flat_map allFields (members_of s)) ds.
Proof.
  intros s I. destruct (gen_struct _ _ _ _ _ PK s I) as (ds & f & ct & Hds & _ & _ & L1 & _ & _). exists ds. split; auto.
  destruct (structDecl_fields _ _ _ _ Hds) as [DN DT]. apply fields_pair; auto.
  - rewrite DN, fieldNames_list. reflexivity.
  - exact (MemWordGen.struct_once _ _ _ _ _ PK s ds I Hds).
Qed.

Lemma tvar_type : forall b l g, tipe camel r (TVar b l) = Ok g -> exists h, tipe camel r b = Ok h /\ g = GSlice h.
Proof. intros b l g T. cbn [tipe] in T. apply bind_ok in T as (h & TB & T). injection T as <-. eauto. Qed.
Lemma tfixed_type : forall b i g, tipe camel r (TFixed b i) = Ok g -> exists n h, int_value (Constant r) i = Some n /\ tipe camel r b = Ok h /\ g = GArray n h.
Proof. intros b i g T. cbn [tipe] in T. apply bind_ok in T as (n & TN & T). apply bind_ok in T as (h & TB & T). injection T as <-. apply integerOf_value in TN. eauto. Qed.

(** Deep values have the Go type. *)
Lemma deep_type : forall v t g, tipe camel r t = Ok g -> deep camel r t v -> ofType (ptypes p) g v.
Proof.
  induction v as [z|s|b|l IH|ty fl IH| |m|b] using value_deep; intros t g T D; inversion D; subst; try (cbn [tipe] in T; injection T as <-; constructor; auto; fail).
  - destruct (tfixed_type _ _ _ T) as (n & h & N & TB & ->). rewrite N in H0. injection H0 as ->. constructor; auto.
    rewrite Forall_forall in *. intros v I. eapply IH; eauto.
  - destruct (tvar_type _ _ _ T) as (h & TB & ->). constructor. rewrite Forall_forall in *. intros v I. eapply IH; eauto.
  - match goal with A : Struct r nm = Some s, B : Extern s = false, C : Forall2 _ _ fl |- _ => rename A into HS; rename B into HE; rename C into HF end.
    cbn [tipe] in T. injection T as <-. destruct (pk_res _ _ _ _ _ PK nm s HS HE) as (<- & I). destruct (struct_fields s I) as (ds & L & F). econstructor; [exact L|].
    clear - F HF IH. revert fl IH HF. induction F as [|[f t] [f' g] l ds [E T] F IHF]; intros fl IH HF; inversion HF as [|? [f2 v] ? ? [E2 D2]]; subst; constructor.
    + pose proof (Forall_inv IH) as IH1. cbn [fst snd] in *. split; [congruence|]. eauto.
    + inversion IH; subst. auto.
  - destruct (tvar_type _ _ _ T) as (h & TB & ->). constructor.
Qed.

(** Types that the checks let through. *)
Definition sound (t : type) : Prop := exists ctxs k, checkType r ctxs k t = true.
Lemma sound_base : forall ctxs t, checkBase r ctxs t = true -> sound t.
Proof. intros ctxs t C. exists ctxs, []. destruct t; cbn [checkBase checkType] in *; auto; discriminate. Qed.
Lemma sound_var : forall b l, sound (TVar b l) -> sound b.
Proof. intros b l (ctxs & k & C). apply (sound_base ctxs). cbn [checkType] in C. destruct l as [[]|]; auto; now apply andb_true_iff in C. Qed.
Lemma sound_fixed : forall b i, sound (TFixed b i) -> sound b.
Proof. intros b i (ctxs & k & C). apply (sound_base ctxs). cbn [checkType] in C. now apply andb_true_iff in C. Qed.

Lemma type_deep : forall v t g, sound t -> tipe camel r t = Ok g -> ofType (ptypes p) g v -> deep camel r t v.
Proof.
  induction v as [z|s|b|l IH|ty fl IH| |m|b] using value_deep; intros t g SD T D;
    (destruct t as [sz cst| | | |nm|b0 i0|b0 l0]; [cbn [tipe] in T; injection T as <-; inversion D; subst; try (constructor; auto; fail)..| |]).
  all: try (destruct (tfixed_type _ _ _ T) as (n & h & N & TB & ->); inversion D; subst; constructor; auto; rewrite Forall_forall in *; intros v J; eapply IH; eauto; eapply sound_fixed; eauto; fail).
  all: try (destruct (tvar_type _ _ _ T) as (h & TB & ->); inversion D; subst; constructor; rewrite Forall_forall in *; intros v J; eapply IH; eauto; eapply sound_var; eauto; fail).
  destruct SD as (ctxs & k & C). cbn [checkType checkBase] in C. destruct (Struct r nm) as [s|] eqn:HS; [|discriminate]. apply andb_true_iff in C as [CE _]. apply negb_true_iff in CE.
  econstructor; [exact HS|exact CE|]. destruct (pk_res _ _ _ _ _ PK nm s HS CE) as (<- & I). destruct (struct_fields s I) as (ds' & L & F).
  match goal with A : alookup _ (ptypes p) = Some ?d, C : Forall2 _ ?d fl |- _ => rename C into HF; rewrite L in A; injection A as <- end.
  pose proof (struct_types _ _ _ _ _ PK s I) as ST. clear - F HF IH ST. revert fl IH HF. unfold sound in *.
  induction F as [|[f t] [f' g] l ds [E T] F IHF]; intros fl IH HF; inversion HF as [|? [f2 v] ? ? [E2 D2]]; subst; constructor.
  - pose proof (Forall_inv IH) as IH1. cbn [fst snd] in *. split; [congruence|]. eapply IH1; eauto. destruct (ST f t (or_introl eq_refl)) as [k C]. eauto.
  - inversion IH; subst. apply IHF; auto. intros nm t' J. eapply ST. right. exact J.
Qed.

Lemma struct_type : forall s fl, In s (definedStructs fs) ->
  (deepStruct camel r s fl <-> ofType (ptypes p) (GPtr (camel (sname s))) (VStruct (camel (sname s)) fl)).
Proof.
  intros s fl I. destruct (struct_fields s I) as (ds & L & F). pose proof (struct_types _ _ _ _ _ PK s I) as ST. unfold deepStruct. split.
  - intros D. econstructor; [exact L|]. clear - F D PK. revert fl D. induction F as [|[f t] [f' g] l ds [E T] F IHF]; intros fl D; inversion D as [|? [f2 v] ? ? [E2 D2]]; subst; constructor; auto.
    cbn [fst snd] in *. split; [congruence|]. eapply deep_type; eauto.
  - intros D. inversion D as [| | | | | | |? ds' ? L' F2| | |]; subst. rewrite L in L'. injection L' as <-. clear - F F2 PK ST. revert fl F2.
    induction F as [|[f t] [f' g] l ds [E T] F IHF]; intros fl F2; inversion F2 as [|? [f2 v] ? ? [E2 D2]]; subst; constructor; auto.
    + cbn [fst snd] in *. split; [congruence|]. destruct (ST f t (or_introl eq_refl)) as [k C]. eapply type_deep; eauto. exists (scontexts s), k. exact C.
    + apply IHF; auto. intros nm t' J. eapply ST. right. exact J.
Qed.

Lemma args_types : forall s args, ctxValues camel r s args -> Forall2 (kv (ptypes p)) (map (paramK camel) (scontexts s)) args.
Proof.
  intros s args H. unfold ctxValues in H. induction H as [|x v xs vs (c & EC & cf & -> & FC) F IH]; cbn [map]; constructor; auto. clear IH F.
  destruct (context_in _ _ _ _ _ PK x c EC) as [I <-]. destruct (MemWordGen.context_type _ _ _ _ _ PK c I) as (fl & L & M). unfold paramK, kv. econstructor; [exact L|].
  pose proof (check_context _ _ _ _ _ PK c I) as CC. unfold checkContext in CC. apply andb_true_iff in CC as [CC _]. apply andb_true_iff in CC as [CC _]. clear L EC I. revert fl M CC.
  induction FC as [|[f t] [f' v] ms cf [E U] FC IH]; intros fl M CC; cbn [mapM] in M; [injection M as <-; constructor|].
  apply bind_ok in M as (d & Hd & M). apply bind_ok in M as (ds & Hm & M). injection M as <-. cbn [forallb fst snd] in *. apply andb_true_iff in CC as [C1 C2].
  destruct t as [sz cst| | | | | |]; try discriminate. cbn [tipe bind] in Hd. injection Hd as <-. constructor; auto. cbn [fst snd]. split; auto.
  destruct (U sz cst eq_refl) as (z & -> & B). now constructor.
Qed.

Theorem parse_typed : forall s fs0 data args n, defines fs s -> deepStruct camel r s fs0 -> ctxValues camel r s args -> goBytes data ->
  exists fs1 res, runParse camel p n s fs0 data args = (VStruct (camel (sname s)) fs1, res) /\ deepStruct camel r s fs1 /\
    forall v e, res = SRet v e -> (v = VNil \/ exists b, v = VBytes b /\ goBytes b) /\ (e = VNil \/ exists m, e = VErr m).
Proof.
  intros s fs0 data args n D DS CV GB. pose proof (proj1 (defines_in _ _) D) as I. apply struct_type in DS; auto. unfold runParse.
  destruct (gen_struct _ _ _ _ _ PK s I) as (ds & f & ct & Hds & Hf & _ & L1 & L2 & _).
  destruct (call_typed camel p (methods_typed _ _ _ _ _ PK) n (camel (sname s)) (map (paramK camel) (scontexts s)) (VStruct (camel (sname s)) fs0) (VBytes data) args) as [[A B] C].
  - exact DS.
  - right. eauto.
  - exists f. split; auto. now rewrite (parse_params _ _ _ _ Hf).
  - now apply args_types.
  - destruct (callMethod p n (VStruct (camel (sname s)) fs0) (VBytes data) args) as [v res]. cbn [fst snd] in *. assert (NV : v <> VNil) by (apply B; discriminate).
    assert (A' := A). inversion A' as [| | | | | | |? ds' fs1 L F| | |]; subst; [contradiction|]. exists fs1, res. split; auto. split; [now apply struct_type|].
    intros v e ->. destruct C as [C1 C2]. split; auto. inversion C2; subst; eauto.
Qed.
Theorem new_typed : forall s data args n v e, defines fs s -> ctxValues camel r s args -> goBytes data -> runNew camel p n s data args = SRet v e ->
  (v = VNil \/ exists fs1, v = VStruct (camel (sname s)) fs1 /\ deepStruct camel r s fs1) /\ (e = VNil \/ exists m, e = VErr m).
Proof.
  intros s data args n v e D CV GB H. pose proof (proj1 (defines_in _ _) D) as I. unfold runNew in H.
  destruct (gen_struct _ _ _ _ _ PK s I) as (ds & f & ct & Hds & Hf & Hc & L1 & L2 & L3).
  pose proof (ctor_typed camel p (methods_typed _ _ _ _ _ PK) (ctors_typed _ _ _ _ _ PK) n (camel (sname s)) (map (paramK camel) (scontexts s)) (VBytes data) args) as X.
  rewrite H in X. destruct X as [X1 X2].
  - right. eauto.
  - exists f. split; auto. now rewrite (parse_params _ _ _ _ Hf).
  - now apply args_types.
  - intros f' c' E1 E2. rewrite L2 in E1. rewrite L3 in E2. injection E1 as <-. injection E2 as <-. rewrite (parse_params _ _ _ _ Hf).
    unfold ctorFunc in Hc. apply bind_ok in Hc as (rv & _ & Hc). now injection Hc as <-.
  - split; [|inversion X2; subst; eauto]. assert (X := X1). inversion X as [| | | | | | |? ds' fs1 L F| | |]; subst; auto. right. exists fs1. split; auto. now apply struct_type.
Qed.

(** Deep values are values. *)
Lemma deep_value : forall t v, deep camel r t v -> goValue camel r t v.
Proof. intros t v D. destruct D; cbn [goValue]; unfold uintN; eauto. Qed.
Lemma deep_go : forall s fl, deepStruct camel r s fl -> goStruct camel r s fl.
Proof. intros s fl F. unfold deepStruct, goStruct in *. induction F as [|a b l m [E D] F IH]; constructor; auto. split; auto. now apply deep_value. Qed.
Lemma blank_deep : forall s, defines fs s -> deepStruct camel r s (blank camel (Constant r) s).
Proof.
  intros s D. pose proof (proj1 (defines_in _ _) D) as I. apply struct_type; auto. destruct (gen_struct _ _ _ _ _ PK s I) as (ds & f & ct & Hds & Hf & Hc & L1 & L2 & L3).
  rewrite <- (WireProofs.zeros_blank camel r s ds Hds).
  econstructor; [exact L1|]. apply zeros_typed. eapply struct_sized; eauto.
Qed.

Theorem called_typed : forall s fs0 calls fs1, defines fs s -> deepStruct camel r s fs0 -> calledOn camel p s fs0 calls fs1 ->
  Forall (fun c => goBytes (fst c) /\ ctxValues camel r s (snd c)) calls -> deepStruct camel r s fs1.
Proof.
  intros s fs0 calls fs1 D DS CO. induction CO as [fs0|fs0 data args n fs1 v e more fs2 H CO IH]; intros F; auto. inversion F as [|? ? [G C] F']; subst.
  apply IH; auto. destruct (parse_typed s fs0 data args n D DS C G) as (fs1' & res & E & DS1 & _). rewrite H in E. injection E as -> _. exact DS1.
Qed.
End Package.
