(** Integers that do not fit the field they are compared with are compile errors. *)
From Coq Require Import ZArith String List Bool Lia ZifyBool ZifyNat.
From Verif Require Import Base Ast IntervalsModel InspectModel InspectSpec InspectProofs GoLang GenModel GenCheck GenSim GenSimBody GenSimProg
  WireFacts WireComplete PackageSpec PackageProofs GoTypes CompileCheck CompileProofs CompileProg.
Import ListNotations.
Open Scope string_scope.
Open Scope list_scope.
Open Scope Z_scope.

Section Static.
Variable camel : string -> string.
Variable types : amap (list (string * gtype)).
Variable methods : amap func.
Variable pkg : list string.
Variable results : gtype * gtype.
Notation TypeE := (typeE types pkg).
Notation CheckS := (checkS camel types methods pkg results).
Notation CheckSs := (checkSs camel types methods pkg results).
Notation BlockOk := (blockOk camel types methods pkg results).

Lemma block_some : forall G b, BlockOk G b = true -> exists G1, CheckSs ([] :: G) b = Some G1.
Proof. intros G b H. unfold blockOk in H. destruct (CheckSs ([] :: G) b); [eauto|discriminate]. Qed.
Lemma checkSs_cons : forall s ss G G2, CheckSs G (s :: ss) = Some G2 -> exists G1, CheckS G s = Some G1 /\ CheckSs G1 ss = Some G2.
Proof.
  intros s ss G G2 H. cbn [checkSs] in H. destruct (CheckS G s) as [G1|]; [|discriminate]. exists G1. split; auto.
  destruct s; auto; destruct (usesSs _ ss); auto; discriminate.
Qed.
Lemma checkSs_split : forall a b G G2, CheckSs G (a ++ b) = Some G2 -> exists G1, CheckSs G1 b = Some G2.
Proof.
  induction a as [|s a IH]; intros b G G2 H; [eauto|]. apply checkSs_cons in H as (G1 & _ & H). eauto.
Qed.
Lemma plain_same : forall s G G1, plain s = true -> CheckS G s = Some G1 -> G1 = G.
Proof.
  intros s G G1 P H. destruct s; cbn [plain] in P; try discriminate; cbn [checkS] in H;
  match type of H with (if ?b then _ else _) = _ => destruct b; [congruence|discriminate] end.
Qed.
Lemma checkSs_in : forall ss s G G2, Forall (fun s => plain s = true) ss -> CheckSs G ss = Some G2 -> In s ss -> CheckS G s = Some G.
Proof.
  induction ss as [|x ss IH]; intros s G G2 F H I; [destruct I|]. apply checkSs_cons in H as (G1 & H1 & H2).
  pose proof (plain_same _ _ _ (Forall_inv F) H1) as ->. destruct I as [->|I]; auto. eapply IH; eauto. eapply Forall_inv_tail; eauto.
Qed.
Lemma checkSs_plain_same : forall ss G G2, Forall (fun s => plain s = true) ss -> CheckSs G ss = Some G2 -> G2 = G.
Proof.
  induction ss as [|x ss IH]; intros G G2 F H; [cbn in H; congruence|]. apply checkSs_cons in H as (G1 & H1 & H2).
  pose proof (plain_same _ _ _ (Forall_inv F) H1) as ->. eapply IH; eauto. eapply Forall_inv_tail; eauto.
Qed.

Variable r : resolver.
Lemma clause_needs : forall G v g sz x c, TypeE G v = Some (Tg g) -> norm g = GUint sz ->
  clauseOf r v x = Ok c -> TypeE G c = Some Tbool -> fitsList r sz [x] = true.
Proof.
  intros G v g sz x c H N C T. unfold fitsList. cbn [forallb]. rewrite andb_true_r. unfold range_bounds. unfold clauseOf in C. destruct (rhigh x) as [h|].
  - apply bind_ok in C as (l & Hl & C). apply bind_ok in C as (h' & Hh & C). injection C as <-.
    apply integerOf_value in Hl. apply integerOf_value in Hh. rewrite Hl, Hh. cbn [typeE] in T. rewrite H in T. cbn [common] in T.
    rewrite !(inRange_norm g sz) in T by auto. destruct ((0 <=? l) && (l <? 2 ^ sz)) eqn:E1; [|discriminate].
    destruct ((0 <=? h') && (h' <? 2 ^ sz)) eqn:E2; [|discriminate]. lia.
  - apply bind_ok in C as (l & Hl & C). injection C as <-. apply integerOf_value in Hl. rewrite Hl. cbn [typeE] in T. rewrite H in T. cbn [common] in T.
    rewrite !(inRange_norm g sz) in T by auto. destruct ((0 <=? l) && (l <? 2 ^ sz)) eqn:E1; [|discriminate]. lia.
Qed.
Lemma join_needs : forall G cs c, TypeE G (fold_left (fun a b => EBin BOr a b) cs c) = Some Tbool ->
  TypeE G c = Some Tbool /\ Forall (fun c => TypeE G c = Some Tbool) cs.
Proof.
  intros G cs. induction cs as [|d cs IH]; intros c H; [split; [exact H|constructor]|]. cbn [fold_left] in H. apply IH in H as [H F]. cbn [typeE] in H.
  destruct (TypeE G c) as [[]|] eqn:E1; try discriminate; destruct (TypeE G d) as [[]|] eqn:E2; try discriminate. split; auto.
Qed.
Lemma cond_needs : forall G v g sz l c, TypeE G v = Some (Tg g) -> norm g = GUint sz ->
  conditional r v l = Ok c -> TypeE G c = Some Tbool -> fitsList r sz l = true.
Proof.
  intros G v g sz l c H N C T. unfold conditional in C. apply bind_ok in C as (cs & M & C). injection C as <-.
  assert (A : Forall (fun c => TypeE G c = Some Tbool) cs).
  { destruct cs as [|c cs]; [constructor|]. cbn [joinOr] in T. apply join_needs in T as [T1 T2]. now constructor. }
  clear T. revert cs M A. induction l as [|x l IH]; intros cs M A; cbn [mapM] in M; [reflexivity|].
  apply bind_ok in M as (c & Hc & M). apply bind_ok in M as (cs' & Hcs & M). injection M as <-.
  unfold fitsList in *. cbn [forallb]. rewrite (IH cs' Hcs (Forall_inv_tail A)), andb_true_r.
  pose proof (clause_needs G v g sz x c H N Hc (Forall_inv A)) as X. unfold fitsList in X. cbn [forallb] in X. now rewrite andb_true_r in X.
Qed.
Lemma int_needs : forall G lhs sz l g ss G2, placeOf types pkg G lhs = Some g -> norm g = GUint sz ->
  parseIntType r lhs sz (Some l) = Ok ss -> CheckSs G ss = Some G2 -> fitsList r sz l = true.
Proof.
  intros G lhs sz l g ss G2 PL N H C. pose proof (int_plain _ _ _ _ _ H) as PLN. unfold parseIntType in H. apply bind_ok in H as (chk & Hc & H). injection H as <-.
  apply bind_ok in Hc as (c & Hc & E). injection E as <-.
  assert (T : TypeE G (lexpr lhs) = Some (Tg g)).
  { unfold placeOf in PL. destruct (TypeE G (lexpr lhs)) as [[]|]; try discriminate. congruence. }
  assert (X : CheckS G (SIf (ENot (EParen c)) [retErr "integer constraint violated"]) = Some G).
  { eapply checkSs_in; eauto. cbn. auto. }
  rewrite checkS_if in X. cbn [typeE] in X. destruct (TypeE G c) as [[]|] eqn:TC; try discriminate.
  apply (cond_needs G (lexpr lhs) g sz l c); auto.
Qed.

Section Struct.
Variable rv : string.
Variable me : string.
Variable ctxs : list string.
Variable stypes : list string.
Hypothesis NRV : goName rv = true.
Hypothesis NCT : forall x, In x ctxs -> goName x = true.
Notation Sound := (sound camel rv me ctxs stypes).
Notation Local := (local rv ctxs stypes).
Variable flds : list (string * gtype).
Hypothesis MINE : alookup me types = Some flds.
Hypothesis CTX : forall x n sz, ctxField r ctxs x n = Some sz ->
  exists fs, alookup (camel x) types = Some fs /\ alookup (camel n) fs = Some (GUint sz).
Notation Knows := (knows camel flds).

Lemma base_needs : forall b lhs g ss G G2, checkBase r ctxs b = true -> parseType camel r rv lhs b = Ok ss -> tipe camel r b = Ok g ->
  placeOf types pkg G lhs = Some g -> CheckSs G ss = Some G2 -> fitsT r b = true.
Proof.
  intros b lhs g ss G G2 C P T PL H. destruct b as [sz [l|]| | | | | |]; cbn in C; try discriminate; try reflexivity.
  cbn [fitsT parseType tipe] in *. injection T as <-. eapply int_needs; eauto.
Qed.

Lemma loop_needs : forall G lhs b g n body G2, Sound G -> checkBase r ctxs b = true -> tipe camel r b = Ok g -> Local "idx" ->
  parseType camel r rv (LIdx lhs (EVar "idx")) b = Ok body ->
  (forall H, Sound H -> TypeE H (lexpr lhs) = Some (Tg (GSlice g)) \/ exists z, TypeE H (lexpr lhs) = Some (Tg (GArray z g))) ->
  CheckS G (SForLt "idx" n body) = Some G2 -> fitsT r b = true.
Proof.
  intros G lhs b g n body G2 S C T L P TL H. rewrite checkS_for in H. set (G1 := [("idx", Tg GInt)] :: G) in *.
  destruct (goName "idx" && _) eqn:E in H; [|discriminate]. apply andb_true_iff in E as [_ E].
  destruct (TypeE G1 (EBin BLt (EVar "idx") n)) as [[]|]; try discriminate. apply block_some in E as (G3 & E).
  assert (S1 : Sound ([] :: G1)) by (apply sound_push; apply sound_decl; auto; now apply sound_push).
  eapply base_needs; eauto. unfold placeOf. cbn [lexpr].
  assert (TI : TypeE ([] :: G1) (EVar "idx") = Some (Tg GInt)) by reflexivity.
  destruct (TL _ S1) as [X|(z & X)].
  - now rewrite (type_idx types pkg _ _ _ _ g X TI eq_refl).
  - now rewrite (type_aidx types pkg _ _ _ _ z g X TI eq_refl).
Qed.
Lemma while_needs : forall G b g body c rest G2, checkBase r ctxs b = true -> tipe camel r b = Ok g ->
  parseType camel r rv (LVar "tmp") b = Ok body ->
  CheckS G (SWhile c ([SVar "tmp" g] ++ body ++ rest)) = Some G2 -> fitsT r b = true.
Proof.
  intros G b g body c rest G2 C T P H. rewrite checkS_while in H. destruct (TypeE G c) as [[]|]; try discriminate.
  destruct (BlockOk G ([SVar "tmp" g] ++ body ++ rest)) eqn:E; [|discriminate]. apply block_some in E as (G3 & E).
  cbn [app] in E. apply checkSs_cons in E as (G4 & E1 & E2). cbn [checkS] in E1. destruct (typeOk types pkg ([] :: G) g); [|discriminate].
  unfold declare in E1. destruct (goName "tmp" && _) in E1; [|discriminate]. injection E1 as <-.
  destruct b as [sz [l|]| | | | | |]; cbn in C; try discriminate; try reflexivity. cbn [fitsT parseType tipe] in *. injection T as <-.
  set (G1 := [("tmp", Tg (GUint sz))] :: G) in *.
  assert (X : exists G5, CheckSs G1 body = Some G5).
  { pose proof (int_plain _ _ _ _ _ P) as PLN. clear - E2 PLN. revert E2. generalize G1. clear G1. induction body as [|s body IH]; intros G1 E2; [cbn; eauto|].
    cbn [app] in E2. apply checkSs_cons in E2 as (G5 & H1 & H2). pose proof (plain_same _ _ _ (Forall_inv PLN) H1) as ->.
    destruct (IH (Forall_inv_tail PLN) G1 H2) as (G6 & H6). exists G6. rewrite checkSs_plain by apply (Forall_inv PLN). now rewrite H1. }
  destruct X as (G5 & X). eapply (int_needs G1 (LVar "tmp") sz l (GUint sz)); eauto; reflexivity.
Qed.

Lemma field_needs : forall G k f t g ss G2, Sound G -> Knows k -> checkType r ctxs k t = true ->
  (forall y, In y (localsT t) -> Local y) -> tipe camel r t = Ok g -> alookup f flds = Some g ->
  parseType camel r rv (LField (LVar rv) f) t = Ok ss -> CheckSs ([] :: G) ss = Some G2 -> fitsT r t = true.
Proof.
  intros G k f t g ss G2 S K C L T FL P H.
  assert (SP : Sound ([] :: G)) by now apply sound_push.
  assert (PF : forall H g, Sound H -> alookup f flds = Some g -> placeOf types pkg H (LField (LVar rv) f) = Some g).
  { intros H0 h SH FH. eapply (place_field camel types pkg); eauto. }
  assert (TF : forall H g, Sound H -> alookup f flds = Some g -> TypeE H (lexpr (LField (LVar rv) f)) = Some (Tg g)).
  { intros H0 h SH FH. eapply (type_field camel types pkg); eauto. }
  assert (BASE : checkBase r ctxs t = true -> fitsT r t = true) by (intros CB; eapply base_needs; eauto).
  destruct t as [| | | | |b i|b [[rf|i]|]]; cbn [checkType] in C; auto.
  - apply andb_true_iff in C as [CB CC]. cbn [fitsT tipe] in *. apply bind_ok in T as (n & Hn & T). apply bind_ok in T as (h & Hh & T).
    injection T as <-. cbn [parseType] in P. rewrite Hn in P. cbn [bind] in P. apply bind_ok in P as (body & Hb & P). injection P as <-.
    apply checkSs_cons in H as (G3 & H & _). cbn [localsT] in L. assert (LI : Local "idx") by (apply L; cbn; auto). eapply (loop_needs ([] :: G) (LField (LVar rv) f)); eauto.
  - apply andb_true_iff in C as [CB CC]. cbn [fitsT tipe] in *. apply bind_ok in T as (h & Hh & T). injection T as <-. cbn [parseType] in P. rewrite Hh in P. cbn [bind] in P.
    apply bind_ok in P as (body & Hb & P). injection P as <-. apply checkSs_cons in H as (G3 & H1 & H). pose proof (fun Q => plain_same _ _ _ Q H1) as QH1. specialize (QH1 eq_refl). subst.
    apply checkSs_cons in H as (G4 & H & _). cbn [localsT] in L. assert (LI : Local "idx") by (apply L; cbn; auto). eapply (loop_needs ([] :: G) (LField (LVar rv) f)); eauto.
  - apply andb_true_iff in C as [CB CC]. cbn [fitsT tipe] in *. apply bind_ok in T as (h & Hh & T). injection T as <-. cbn [parseType] in P. rewrite Hh in P. cbn [bind] in P.
    apply bind_ok in P as (body & Hb & P). unfold constrained in P. apply bind_ok in P as ([chk n] & Hc & P). injection P as <-.
    apply checkSs_cons in H as (? & _ & H). apply checkSs_cons in H as (? & _ & H). apply checkSs_cons in H as (? & _ & H).
    apply checkSs_cons in H as (? & _ & H). apply checkSs_cons in H as (? & H & _). eapply (while_needs _ b h); eauto. exact H.
  - cbn [fitsT tipe] in *. apply bind_ok in T as (h & Hh & T). injection T as <-. cbn [parseType] in P. rewrite Hh in P. cbn [bind] in P.
    apply bind_ok in P as (body & Hb & P). injection P as <-. apply checkSs_cons in H as (? & _ & H). apply checkSs_cons in H as (? & H & _).
    eapply (while_needs _ b h); eauto. exact H.
Qed.

Notation Declared := (declared camel r flds).
Definition memberNeeds (m : member) : Prop := forall k st G G2,
  checkMember r ctxs k m = true -> (forall y, In y (localsM m) -> Local y) -> Knows k -> Declared (fieldsM m) ->
  parseMember camel r rv m = Ok st -> Sound G -> CheckS G st = Some G2 -> fitsM r ctxs k m = true.
Lemma member_plain : forall m st, parseMember camel r rv m = Ok st -> plain st = true.
Proof.
  intros m st P. destruct m as [nm t|u tag len cs| | |]; cbn [parseMember] in P; try (injection P as <-; reflexivity).
  - apply bind_ok in P as (b & _ & P). injection P as <-. reflexivity.
  - apply bind_ok in P as (cases & _ & P). destruct len; [apply bind_ok in P as (b & _ & P)|]; injection P as <-; reflexivity.
Qed.
Lemma members_plain : forall ms ss, mapM (parseMember camel r rv) ms = Ok ss -> Forall (fun s => plain s = true) ss.
Proof.
  induction ms as [|m ms IH]; intros ss P; cbn [mapM] in P; [injection P as <-; constructor|].
  apply bind_ok in P as (st & Hst & P). apply bind_ok in P as (ss' & Hss & P). injection P as <-. constructor; auto. eapply member_plain; eauto.
Qed.
Lemma members_needs : forall ms, Forall memberNeeds ms -> forall k ss G,
  checkMembers r ctxs k ms = true -> (forall y, In y (flat_map localsM ms) -> Local y) -> Knows k -> Declared (flat_map fieldsM ms) ->
  mapM (parseMember camel r rv) ms = Ok ss -> Sound G -> Forall (fun s => CheckS G s = Some G) ss -> fitsMs r ctxs k ms = true.
Proof.
  induction ms as [|m ms IH]; intros A k ss G C L K FD P S F; [reflexivity|]. cbn [mapM] in P.
  apply bind_ok in P as (st & Hst & P). apply bind_ok in P as (ss' & Hss & P). injection P as <-.
  cbn [checkMembers] in C. apply andb_true_iff in C as [C1 C2]. cbn [flat_map] in *.
  assert (FD1 : Declared (fieldsM m)) by (intros nm t I; apply FD; apply in_or_app; auto).
  cbn [fitsMs]. apply andb_true_iff. split.
  - apply (Forall_inv A k st G G); auto; [|apply (Forall_inv F)]. intros y I. apply L. apply in_or_app; auto.
  - apply (IH (Forall_inv_tail A) (addKnown k m) ss' G); auto; [| | |apply (Forall_inv_tail F)].
    + intros y I. apply L. apply in_or_app; auto.
    + now apply knows_add with (r := r).
    + intros nm t I. apply FD. apply in_or_app; auto.
Qed.

Lemma switch_needs : forall k tag sz cs cases G G2, refWidth r ctxs k tag = Some sz -> Knows k -> Sound G ->
  Forall (fun c => Forall memberNeeds (ucase_members c)) cs ->
  (forall l ms, In (UCase l ms) cs ->
     checkMembers r ctxs k ms = true /\ (forall y, In y (flat_map localsM ms) -> Local y) /\ Declared (flat_map fieldsM ms)) ->
  pcases camel rv r tag cs = Ok cases -> CheckS G (SSwitch cases) = Some G2 ->
  forall l ms, In (UCase l ms) cs -> match l with None => True | Some l' => fitsList r sz l' = true end /\ fitsMs r ctxs k ms = true.
Proof.
  intros k tag sz cs cases G G2 RW K S A Q P H. rewrite checkS_switch in H. destruct (atMostOneDefault cases && _) eqn:E in H; [|discriminate].
  apply andb_true_iff in E as [_ E]. clear H. revert cases P E. induction cs as [|[l ms] cs IH]; intros cases P E l0 ms0 I; [destruct I|]. cbn [pcases] in P.
  destruct (Q l ms (or_introl eq_refl)) as (Q2 & Q5 & Q6).
  assert (B : forall b, pmembers camel rv r ms = Ok b -> BlockOk G b = true -> fitsMs r ctxs k ms = true).
  { intros b Hb OK. rewrite pmembers_eq in Hb. apply block_some in OK as (G3 & OK).
    apply (members_needs ms (Forall_inv A) k b ([] :: G)); auto; [now apply sound_push|]. apply Forall_forall. intros s Is.
    apply (checkSs_in b s _ G3); auto. eapply members_plain; eauto. }
  destruct l as [l|].
  - apply bind_ok in P as (c & Hc & P). apply bind_ok in P as (b & Hb & P). apply bind_ok in P as (rest & Hr & P). injection P as <-.
    cbn [forallb fst snd] in E. apply andb_true_iff in E as [E1 E2]. apply andb_true_iff in E1 as [E0 E1]. destruct I as [I|I].
    + injection I as <- <-. split; [|eauto]. destruct (TypeE G c) as [[]|] eqn:TC; try discriminate.
      apply (cond_needs G (refExpr camel rv tag) (GUint sz) sz l c); auto. eapply type_ref; eauto.
    + apply (IH (Forall_inv_tail A) (fun l ms J => Q l ms (or_intror J)) rest Hr E2 l0 ms0 I).
  - apply bind_ok in P as (b & Hb & P). apply bind_ok in P as (rest & Hr & P). injection P as <-.
    cbn [forallb fst snd] in E. apply andb_true_iff in E as [E1 E2]. destruct I as [I|I].
    + injection I as <- <-. split; eauto.
    + apply (IH (Forall_inv_tail A) (fun l ms J => Q l ms (or_intror J)) rest Hr E2 l0 ms0 I).
Qed.

Lemma member_needs : forall m, memberNeeds m.
Proof.
  induction m as [nm t|u tag len cs IH| | |] using member_ind'; intros k st G G2 C L K FD P S H; try reflexivity.
  - cbn [parseMember] in P. apply bind_ok in P as (b & Hb & P). injection P as <-. destruct (FD nm t) as (g & Hg & Hl); [cbn; auto|].
    rewrite checkS_block in H. destruct (BlockOk G b) eqn:E; [|discriminate]. apply block_some in E as (G3 & E).
    exact (field_needs G k (camel nm) t g b G3 S K C L Hg Hl Hb E).
  - destruct (check_union _ _ _ _ _ _ _ C) as ((sz & RW) & CL & CC). cbn [parseMember] in P. apply bind_ok in P as (cases & Hcs & P).
    change (pcases camel rv r tag cs = Ok cases) in Hcs.
    assert (Q : forall l ms, In (UCase l ms) cs ->
     checkMembers r ctxs k ms = true /\ (forall y, In y (flat_map localsM ms) -> Local y) /\ Declared (flat_map fieldsM ms)).
    { intros l ms I. destruct (CC _ I) as [CA CB]. cbn [ucase_members] in CB. split; [exact CB|]. split.
      - intros y Hy. apply L. cbn [localsM]. apply in_or_app. right. apply in_flat_map. exists (UCase l ms). auto.
      - intros nm t Hf. apply FD. cbn [fieldsM]. apply in_flat_map. exists (UCase l ms). auto. }
    assert (SW : exists G3 G4, Sound G3 /\ CheckS G3 (SSwitch cases) = Some G4).
    { destruct len as [c|].
      - apply bind_ok in P as (b & Hb & P). injection P as <-. rewrite checkS_block in H. destruct (BlockOk G b) eqn:E; [|discriminate].
        apply block_some in E as (G3 & E). unfold constrained in Hb. apply bind_ok in Hb as ([chk n] & Hc & Hb). injection Hb as <-.
        assert (PC : plain chk = true).
        { destruct c; [injection Hc as <- <-; reflexivity|]. apply bind_ok in Hc as (z & _ & Hc). injection Hc as <- <-. reflexivity. }
        apply checkSs_cons in E as (? & E1 & E). pose proof (plain_same _ _ _ PC E1) as ->. apply checkSs_cons in E as (G5 & E2 & E).
        apply checkSs_cons in E as (? & E3 & E). pose proof (fun Q => plain_same _ _ _ Q E3) as QE3. specialize (QE3 eq_refl). subst. apply checkSs_cons in E as (G6 & E4 & _).
        cbn [checkS] in E2. destruct (typeE types pkg ([] :: G) (EFrom GenModel.cur n)) as [[]|]; try discriminate.
        unfold declare in E2. destruct (goName "restore" && _) in E2; [|discriminate]. injection E2 as <-.
        eexists. exists G6. split; [|exact E4]. apply sound_decl; [now apply sound_push|]. apply L. cbn. auto.
      - injection P as <-. rewrite checkS_block in H. destruct (BlockOk G [SSwitch cases]) eqn:E; [|discriminate]. apply block_some in E as (G3 & E).
        apply checkSs_cons in E as (G4 & E & _). exists ([] :: G), G4. split; auto. now apply sound_push. }
    destruct SW as (G3 & G4 & S3 & HS). cbn [fitsM]. rewrite RW. apply forallb_forall. intros [l ms] I.
    destruct (switch_needs k tag sz cs cases G3 G4 RW K S3 IH Q Hcs HS l ms I) as [X1 X2].
    apply andb_true_iff. split; [destruct l; auto|]. fold (ffix ctxs r). rewrite ffix_eq. exact X2.
Qed.
End Struct.
End Static.

(** In a package that compiles, every integer fits what it is compared with. *)
Theorem compiles_fits : forall camel os fs r p, package camel os fs r p -> namesFiles camel fs = true ->
  compiles camel p = true -> fitsFiles r fs = true.
Proof.
  intros camel os fs r p PK CF H. unfold fitsFiles. apply forallb_forall. intros s I.
  destruct (struct_facts camel os fs r p PK CF s I) as (rv & F).
  destruct (gen_struct camel os fs r p PK s I) as (ds & f & ct & Hds & Hf & _ & L1 & L2 & _).
  unfold compiles in H. repeat rewrite andb_true_iff in H. destruct H as (((_ & _) & M) & _). rewrite forallb_forall in M.
  specialize (M _ (alookup_some_in _ _ _ L2)). unfold methodOk in M. cbn [fst snd] in M. apply andb_true_iff in M as [_ M].
  unfold parseFunc in Hf. rewrite (fa_recv _ _ _ _ _ F) in Hf. cbn [bind] in Hf. apply bind_ok in Hf as (ms & Hms & Hf). injection Hf as <-.
  unfold funcOk in M. cbn [fparams fbody frecv app] in M. apply andb_true_iff in M as [_ M].
  change (("data", Tg goBytesT) :: map (fun x => (x, Tstruct (camel x))) (scontexts s)) with (params camel s) in M.
  set (G0 := (rv, Tg (GPtr (camel (sname s)))) :: params camel s) in *.
  destruct (checkSs camel (ptypes p) (pmethods p) (packageNames p) (goBytesT, GError) [G0] (SDecl "cur" (EVar "data") :: ms ++ [SReturn GenModel.cur ENil])) as [G2|] eqn:E; [|discriminate M].
  apply checkSs_cons in E as (G1 & E1 & E2).
  pose proof (method_scope camel fs r CF s rv F) as S1. fold G0 in S1.
  assert (EQ : G1 = [("cur", Tg goBytesT) :: G0]).
  { assert (L : lookupS "data" [G0] = Some (Tg goBytesT)) by exact (so_data _ _ _ _ _ _ S1).
    cbn [checkS typeE] in E1. change (String.eqb "data" "_") with false in E1. cbn iota in E1. rewrite L in E1. unfold declare in E1.
    destruct (goName "cur" && _) in E1; [congruence|discriminate]. }
  subst G1.
  assert (PM : Forall (fun st => plain st = true) (ms ++ [SReturn GenModel.cur ENil])).
  { apply Forall_app. split; [eapply members_plain; eauto|]. constructor; [reflexivity|constructor]. }
  apply (members_needs camel (ptypes p) (pmethods p) (packageNames p) (goBytesT, GError) r rv (camel (sname s)) (scontexts s) (structTypes camel fs) ds (members_of s))
    with (ss := ms) (G := [("cur", Tg goBytesT) :: G0]); auto; try apply F.
  - apply Forall_forall. intros m _. apply member_needs; auto; try apply F. intros x n sz. apply (pk_ctx camel os fs r p PK CF).
  - intros y J. eapply local_ok; eauto. cbn. auto.
  - intros n sz X. discriminate.
  - eapply struct_declared; eauto.
  - apply Forall_forall. intros st J. eapply checkSs_in; eauto. apply in_or_app. auto.
Qed.

Theorem compiles_iff : forall camel os fs r p, package camel os fs r p -> namesFiles camel fs = true ->
  (compiles camel p = true <-> fitsFiles r fs = true).
Proof. intros. split; [eapply compiles_fits; eauto|eapply package_compiles; eauto]. Qed.
