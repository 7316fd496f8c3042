(** Generated code respects the types of variables and fields. *)
From Coq Require Import ZArith String List Bool Lia ZifyBool ZifyNat.
From Verif Require Import Base Ast IntervalsModel InspectModel InspectSpec InspectProofs GoLang GenModel GenCheck GenSim GenSimBody GenSimProg GenSafe WireSpec PackageSpec PackageProofs CompileProofs CompileProg ScopeProofs
  TypedSpec TypedExec.
From Verif Require MemWordGen.
Import ListNotations.
Open Scope string_scope.
Open Scope list_scope.
Open Scope Z_scope.

Section Gen.
Variable camel : string -> string.
Variable r : resolver.
Variable types : amap (list (string * gtype)).
Variable sigs : string -> list kind -> Prop.
Definition paramK (x : string) : kind := KTy (GPtr (camel x)).
Hypothesis STRUCT : forall n t, Struct r n = Some t -> Extern t = false -> sigs (camel n) (map paramK (scontexts t)) /\
  exists fl, alookup (camel n) types = Some fl /\ Forall (fun d => sized (snd d) = true) fl.

Variable rv ty : string.
Variable ds : list (string * gtype).
Variable ctxs : list string.
Variable ALL : list (string * type).
Hypothesis DS : alookup ty types = Some ds.
Hypothesis FIELD : forall nm t, In (nm, t) ALL -> exists g, tipe camel r t = Ok g /\ alookup (camel nm) ds = Some g.

Notation hasV := (hasV types).
Notation place := (place types).
Notation wS := (wS types sigs KIn).
Notation wB := (wB types sigs KIn).
Notation wC := (wC types sigs KIn).

Lemma wB_app : forall G a G1 b G2, wB G a G1 -> wB G1 b G2 -> wB G (a ++ b) G2.
Proof.
  intros G a. revert G. induction a as [|s a IH]; intros G G1 b G2 A B; inversion A; subst; cbn [app]; auto. eapply wCons; eauto.
Qed.
Lemma wB_all : forall G ss, Forall (fun s => wS G s G) ss -> wB G ss G.
Proof. intros G ss F. induction F; [constructor|]. eapply wCons; eauto. Qed.

(** What is in scope. *)
Record scopeW (G : kctx) : Prop := mkScopeW {
  sw_cur : alookup "cur" G = Some KIn;
  sw_data : alookup "data" G = Some KIn;
  sw_ctx : forall x, In x ctxs -> alookup x G = Some (paramK x);
  sw_recv : alookup rv G = Some (KObj ty) }.
Lemma look_push : forall (G : kctx) x y k, x <> y -> alookup x ((y, k) :: G) = alookup x G.
Proof. intros G x y k N. cbn [alookup]. destruct (String.eqb_spec x y); congruence. Qed.
Lemma look_here : forall (G : kctx) x k, alookup x ((x, k) :: G) = Some k.
Proof. intros G x k. cbn [alookup]. now rewrite String.eqb_refl. Qed.
Lemma scopeW_push : forall G y k, scopeW G -> y <> "cur" -> y <> "data" -> y <> rv -> ~ In y ctxs -> scopeW ((y, k) :: G).
Proof.
  intros G y k [A B C D] N1 N2 N3 N4. constructor; [rewrite look_push by congruence; auto|rewrite look_push by congruence; auto| |rewrite look_push by congruence; auto].
  intros x I. rewrite look_push; auto. intros ->. contradiction.
Qed.

(** Where values go. *)
Inductive lhsK (G : kctx) : lval -> gtype -> Prop :=
| lh_field f g : alookup f ds = Some g -> lhsK G (LField (LVar rv) f) g
| lh_idxS f g : alookup f ds = Some (GSlice g) -> lhsK G (LIdx (LField (LVar rv) f) (EVar "idx")) g
| lh_idxA f g n : alookup f ds = Some (GArray n g) -> lhsK G (LIdx (LField (LVar rv) f) (EVar "idx")) g
| lh_tmp g : alookup "tmp" G = Some (KTy g) -> lhsK G (LVar "tmp") g.
Lemma lhs_push : forall G l g y k, lhsK G l g -> y <> "tmp" -> lhsK ((y, k) :: G) l g.
Proof.
  intros G l g y k L N2. destruct L; [now apply lh_field|eapply lh_idxS|eapply lh_idxA|apply lh_tmp]; eauto; rewrite look_push; eauto.
Qed.
Lemma lhs_place : forall G l g, scopeW G -> lhsK G l g -> place G l (KTy g).
Proof.
  intros G l g S L. assert (F : forall f g, alookup f ds = Some g -> place G (LField (LVar rv) f) (KTy g)).
  { intros f h E. eapply p_field; [apply p_var; exact (sw_recv _ S)|now right|exact DS|exact E]. }
  destruct L; auto.
  - eapply p_idxS; eauto.
  - eapply p_idxA; eauto.
  - now apply p_var.
Qed.
Lemma lhs_expr : forall G l g, scopeW G -> lhsK G l g -> hasV G (lexpr l) (KTy g).
Proof. intros G l g S L. apply place_has. now apply lhs_place. Qed.

Lemma w_ret : forall G m, wB G [retErr m] G.
Proof. intros G m. eapply wCons; [|constructor]. eapply wReturn; [apply v_nil|apply v_err|apply sub_nil_in|apply sub_refl]. Qed.
Lemma cur_kind : forall G, scopeW G -> hasV G GenModel.cur KIn.
Proof. intros G S. apply v_var. apply S. Qed.
Lemma w_check : forall G n, wS G (lengthCheck n) G.
Proof. intros G n. unfold lengthCheck. eapply wIf; apply w_ret. Qed.
Lemma w_end : forall G, wS G assertEnd G.
Proof. intros G. unfold assertEnd. eapply wIf; apply w_ret. Qed.
Lemma w_cur : forall G a, scopeW G -> hasV G a KIn -> wS G (SAssign (LVar "cur") a) G.
Proof. intros G a S K. eapply wSet; [exact K|apply p_var; apply S|apply sub_refl]. Qed.

(** Element types. *)
Lemma int_w : forall G lhs sz cst b g, parseIntType r lhs sz cst = Ok b -> goodSize sz = true -> scopeW G -> lhsK G lhs g ->
  numOf (KTy g) = Some (0, 2 ^ sz) -> wB G b G.
Proof.
  intros G lhs sz cst b g P C S L N. unfold parseIntType in P. apply bind_ok in P as (ck & Hc & P). injection P as <-.
  apply wB_all. constructor; [apply w_check|]. constructor.
  { destruct (sz / 8 =? 1) eqn:E8.
    - assert (sz = 8) as -> by (destruct (MemWordGen.goodSize_cases _ C) as [-> |[-> |[-> | ->]]]; auto; discriminate).
      eapply wSet; [eapply v_idxIn; now apply cur_kind|eapply lhs_place; eassumption|]. eapply sub_num; [exact N|lia|]. change (2 ^ 8) with 256. lia.
    - eapply wSet; [apply v_be; now apply cur_kind|eapply lhs_place; eassumption|]. eapply sub_num; [exact N|lia|lia]. }
  apply Forall_app. split; [|constructor; [apply w_cur; auto; eapply v_from; now apply cur_kind|constructor]].
  destruct cst as [l|].
  - apply bind_ok in Hc as (c & Hc & P). injection P as <-. constructor; [|constructor]. eapply wIf. apply w_ret.
  - injection Hc as <-. constructor.
Qed.

Lemma base_w : forall t lhs b G g, parseType camel r rv lhs t = Ok b -> checkBase r ctxs t = true -> tipe camel r t = Ok g -> scopeW G -> lhsK G lhs g ->
  (forall y, In y (localsT t) -> y <> rv /\ ~ In y ctxs) -> exists d, wB G b (d ++ G) /\ (forall y, In y (map fst d) -> In y (localsT t)).
Proof.
  intros t lhs b G g P C T S L LV.
  destruct t as [sz cst| | | |n|b0 i0|b0 l0]; cbn [checkBase] in C; try discriminate; cbn [parseType] in P; cbn [tipe] in T; try injection T as <-.
  - exists []. split; [|intros y []]. cbn [app]. unfold checkInt in C. apply andb_true_iff in C as [C _]. eapply int_w; eauto.
  - exists []. split; [|intros y []]. cbn [app]. eapply int_w; eauto.
  - injection P as <-. exists []. split; [|intros y []]. cbn [app]. apply wB_all. constructor; [|constructor].
    eapply wSet; [eapply v_arith; now right|eapply lhs_place; eassumption|]. eapply sub_num; [reflexivity|lia|lia].
  - injection P as <-. exists [("i", KI)]. split; [|cbn; tauto]. cbn [app]. destruct (LV "i" (or_introl eq_refl)) as [L1 L2].
    eapply wCons; [eapply wDecl; apply v_index; now apply cur_kind|].
    assert (S1 : scopeW (("i", KI) :: G)) by (apply scopeW_push; auto; discriminate).
    apply wB_all. constructor; [|constructor; [|constructor]].
    + eapply wIf. apply w_ret.
    + eapply wSet2.
      * apply v_str. eapply v_to. now apply cur_kind.
      * eapply v_from. now apply cur_kind.
      * eapply lhs_place; [exact S1|]. apply lhs_push; [exact L|discriminate].
      * apply p_var. apply S1.
      * apply sub_refl.
      * apply sub_refl.
  - destruct (Struct r n) as [s|] eqn:HS; [|discriminate]. injection P as <-. apply andb_true_iff in C as [CE CC]. apply negb_true_iff in CE.
    destruct (STRUCT n s HS CE) as (SG & fl & LF & SZ).
    exists [("err", KTy GError)]. split; [|cbn; tauto]. cbn [app]. destruct (LV "err" (or_introl eq_refl)) as [L1 L2].
    eapply wCons; [apply wVar; reflexivity|].
    assert (S1 : scopeW (("err", KTy GError) :: G)) by (apply scopeW_push; auto; discriminate).
    assert (LE : alookup "err" (("err", KTy GError) :: G) = Some (KTy GError)) by apply look_here.
    assert (LL : lhsK (("err", KTy GError) :: G) lhs (GPtr (camel n))) by (apply lhs_push; auto; discriminate).
    apply wB_all. constructor; [|constructor; [|constructor; [|constructor]]].
    + eapply wSet; [eapply v_new; eauto|eapply lhs_place; eassumption|apply sub_refl].
    + eapply wParse; [eapply lhs_place; eassumption|now apply cur_kind|exact SG| |apply S1|exact LE].
      rewrite forallb_forall in CC. clear SG. induction (scontexts s) as [|x xs IH]; cbn [map]; constructor.
      * apply v_var. apply S1. apply memb_in. apply CC. now left.
      * apply IH. intros y I. apply CC. now right.
    + eapply wIf. eapply wCons; [|constructor]. eapply wReturn; [apply v_nil|apply v_var; exact LE|apply sub_nil_in|apply sub_refl].
Qed.

Lemma base_sized : forall t g, checkBase r ctxs t = true -> tipe camel r t = Ok g -> sized g = true.
Proof.
  intros t g C T. clear - C T. destruct t as [sz cst| | | |n|b0 i0|b0 l0]; cbn [checkBase] in C; try discriminate; cbn [tipe] in T; injection T as <-; cbn [sized]; try lia.
  unfold checkInt in C. apply andb_true_iff in C as [C _]. destruct (MemWordGen.goodSize_cases _ C) as [-> |[-> |[-> | ->]]]; reflexivity.
Qed.

Lemma constrained_w : forall G c body b, constrained camel r rv c body = Ok b -> scopeW G ->
  "restore" <> rv -> ~ In "restore" ctxs ->
  (exists G1, wB (("restore", KIn) :: G) body (G1 ++ ("restore", KIn) :: G) /\ scopeW (G1 ++ ("restore", KIn) :: G) /\ alookup "restore" (G1 ++ ("restore", KIn) :: G) = Some KIn) ->
  exists G', wB G b G'.
Proof.
  intros G c body b P S N1 N2 (G1 & OB & SB & RB). unfold constrained in P. apply bind_ok in P as ([ck n] & Hc & P). injection P as <-.
  assert (S1 : scopeW (("restore", KIn) :: G)) by (apply scopeW_push; auto; discriminate).
  assert (X1 : wS G ck G).
  { destruct c; [injection Hc as <- <-; apply w_check|]. apply bind_ok in Hc as (z & Hz & Hc). injection Hc as <- <-. apply w_check. }
  eexists. cbn [app].
  eapply wCons; [exact X1|]. eapply wCons; [eapply wDecl; eapply v_from; now apply cur_kind|].
  eapply wCons; [apply w_cur; auto; eapply v_to; now apply cur_kind|].
  eapply wB_app; [exact OB|]. apply wB_all. constructor; [apply w_end|]. constructor; [|constructor]. apply w_cur; auto. now apply v_var.
Qed.

Lemma fill_w : forall G g b0 body f, parseType camel r rv (LVar "tmp") b0 = Ok body -> checkBase r ctxs b0 = true -> tipe camel r b0 = Ok g ->
  alookup f ds = Some (GSlice g) -> scopeW G -> "tmp" <> rv -> ~ In "tmp" ctxs -> (forall y, In y (localsT b0) -> y <> rv /\ ~ In y ctxs) ->
  wB G [SAssign (LField (LVar rv) f) (EMake g (EInt 0));
        SWhile (EBin BGt (ELen GenModel.cur) (EInt 0))
          ([SVar "tmp" g] ++ body ++ [SAssign (LField (LVar rv) f) (EAppend (lexpr (LField (LVar rv) f)) (EVar "tmp"))])] G.
Proof.
  intros G g b0 body f P C T LF S N1 N2 LV. pose proof (base_sized _ _ C T) as Z1.
  assert (ST : scopeW (("tmp", KTy g) :: G)) by (apply scopeW_push; auto; discriminate).
  destruct (base_w b0 (LVar "tmp") body (("tmp", KTy g) :: G) g P C T ST) as (d & OB & D); auto.
  { apply lh_tmp. apply look_here. }
  assert (SD : scopeW (d ++ ("tmp", KTy g) :: G) /\ alookup "tmp" (d ++ ("tmp", KTy g) :: G) = Some (KTy g)).
  { clear OB. assert (NT : forall y, In y (localsT b0) -> y <> "tmp" /\ y <> "cur" /\ y <> "data").
    { intros y I. destruct b0; cbn [checkBase localsT] in *; try discriminate; cbn in I; intuition congruence. }
    induction d as [|[y k] d IH]; cbn [app]; [split; auto; apply look_here|]. destruct IH as [I1 I2]; [intros z I; apply D; now right|].
    assert (J : In y (localsT b0)) by (apply D; now left). destruct (LV _ J), (NT _ J) as (? & ? & ?). split; [apply scopeW_push; auto|]. rewrite look_push; auto. }
  destruct SD as [SD TD].
  apply wB_all. constructor; [|constructor; [|constructor]].
  - eapply wSet; [now apply v_make|eapply lhs_place; [exact S|apply lh_field; exact LF]|apply sub_refl].
  - eapply wWhile. cbn [app].
    eapply wCons; [apply wVar; auto|]. eapply wB_app; [exact OB|]. eapply wCons; [|constructor].
    eapply wSet; [|eapply lhs_place; [exact SD|apply lh_field; exact LF]|apply sub_refl].
    eapply v_append; [eapply lhs_expr; [exact SD|apply lh_field; exact LF]|apply v_var; exact TD|apply sub_refl].
Qed.

Lemma type_w : forall k t nm b G, parseType camel r rv (LField (LVar rv) (camel nm)) t = Ok b -> checkType r ctxs k t = true -> scopeW G ->
  In (nm, t) ALL -> (forall y, In y (localsT t) -> y <> rv /\ ~ In y ctxs) -> exists G', wB G b G'.
Proof.
  intros k t nm b G P C S IA LV. destruct (FIELD _ _ IA) as (g & T & LF).
  assert (BASE : checkBase r ctxs t = true -> exists G', wB G b G').
  { intros CB. destruct (base_w t _ b G g P CB T S) as (d & OB & _); auto; [now apply lh_field|]. eexists; exact OB. }
  assert (ARR : forall b0 body bound, checkBase r ctxs b0 = true -> parseType camel r rv (LIdx (LField (LVar rv) (camel nm)) (EVar "idx")) b0 = Ok body ->
     (forall h, tipe camel r b0 = Ok h -> lhsK (("idx", KI) :: G) (LIdx (LField (LVar rv) (camel nm)) (EVar "idx")) h) -> (exists h, tipe camel r b0 = Ok h) ->
     (forall y, In y ("idx" :: localsT b0) -> y <> rv /\ ~ In y ctxs) -> wS G (SForLt "idx" bound body) G).
  { intros b0 body bound CB PB LB [h TB] LX. destruct (LX "idx" (or_introl eq_refl)) as [X1 X2].
    assert (SX : scopeW (("idx", KI) :: G)) by (apply scopeW_push; auto; discriminate).
    destruct (base_w b0 _ body _ h PB CB TB SX (LB _ TB)) as (d & OB & _); [intros y J; apply LX; now right|].
    eapply wFor; eauto. }
  destruct t as [sz cst| | | |n|b0 i0|b0 [[rf|i0]|]]; cbn [checkType] in C; auto; cbn [parseType] in P; cbn [localsT] in LV; cbn [tipe] in T.
  - apply andb_true_iff in C as [C CC]. apply bind_ok in P as (n & Hn & P). apply bind_ok in P as (body & HB & P). injection P as <-.
    rewrite Hn in T. cbn [bind] in T. apply bind_ok in T as (h & TB & T). injection T as <-.
    exists G. apply wB_all. constructor; [|constructor].
    eapply (ARR b0 body (EInt n)); eauto. intros h' E. rewrite TB in E. injection E as <-. eapply lh_idxA; exact LF.
  - apply andb_true_iff in C as [C W]. apply bind_ok in P as (g0 & Hg & P). apply bind_ok in P as (body & HB & P). injection P as <-.
    rewrite Hg in T. cbn [bind] in T. injection T as <-. pose proof (base_sized _ _ C Hg) as Z1.
    exists G. apply wB_all. constructor; [|constructor; [|constructor]].
    + eapply wSet; [now apply v_make|eapply lhs_place; [exact S|apply lh_field; exact LF]|apply sub_refl].
    + eapply (ARR b0 body); eauto. intros h' E. rewrite Hg in E. injection E as <-. eapply lh_idxS; exact LF.
  - apply andb_true_iff in C as [C W]. apply bind_ok in P as (g0 & Hg & P). apply bind_ok in P as (body & HB & P).
    rewrite Hg in T. cbn [bind] in T. injection T as <-.
    destruct (LV "restore") as [R1 R2]; [left; reflexivity|]. destruct (LV "tmp") as [T1 T2]; [right; left; reflexivity|].
    assert (SR : scopeW (("restore", KIn) :: G)) by (apply scopeW_push; auto; discriminate).
    eapply constrained_w; eauto. exists []. cbn [app]. split; [|split; [exact SR|apply look_here]].
    eapply fill_w; eauto. intros y J. apply LV. right. right. auto.
  - apply bind_ok in P as (g0 & Hg & P). apply bind_ok in P as (body & HB & P). injection P as <-. rewrite Hg in T. cbn [bind] in T. injection T as <-.
    destruct (LV "tmp") as [T1 T2]; [left; reflexivity|].
    exists G. eapply fill_w; eauto. intros y J. apply LV. right. auto.
Qed.

Definition memberW (m : member) : Prop := forall k s G, parseMember camel r rv m = Ok s -> checkMember r ctxs k m = true -> scopeW G ->
  incl (allFields m) ALL -> (forall y, In y (localsM m) -> y <> rv /\ ~ In y ctxs) -> wS G s G.
Lemma members_w : forall ms k b G, (forall m, In m ms -> memberW m) ->
  mapM (parseMember camel r rv) ms = Ok b -> checkMembers r ctxs k ms = true -> scopeW G ->
  incl (flat_map allFields ms) ALL -> (forall m y, In m ms -> In y (localsM m) -> y <> rv /\ ~ In y ctxs) -> wB G b G.
Proof.
  induction ms as [|m ms IHm]; intros k b G IHH M CM S I1 LM; cbn [mapM checkMembers] in *.
  - injection M as <-. constructor.
  - apply bind_ok in M as (s1 & M1 & M). apply bind_ok in M as (b1 & M2 & M). injection M as <-. apply andb_true_iff in CM as [CM1 CM2].
    cbn [flat_map] in *. apply incl_app_inv in I1 as [I1 J1].
    eapply wCons; [eapply (IHH m (or_introl eq_refl)); eauto|eapply (IHm (addKnown k m)); eauto].
    + intros y I. eapply LM; eauto. left. reflexivity.
    + intros m' I. apply IHH. right. auto.
    + intros m' y I. apply LM. right. auto.
Qed.

Lemma member_w : forall m, memberW m.
Proof.
  induction m as [nm t|u tag len cs IH| | |] using member_ind'; intros k s G P C S I1 LV.
  - cbn [parseMember] in P. apply bind_ok in P as (b & P & E). injection E as <-. destruct (type_w k t nm b G P C S) as (G' & OB); auto; [apply I1; now left|]. eapply wBlock; eauto.
  - rewrite parseMember_union in P. apply bind_ok in P as (cases & HC & P). cbn [checkMember] in C. apply andb_true_iff in C as [C C3].
    apply andb_true_iff in C as [C1 C2]. cbn [allFields] in *.
    assert (SW : forall G1, scopeW G1 -> wC G1 cases).
    { clear P C2 S. intros G1 S1. rewrite Forall_forall in IH.
      assert (LC : forall l ms m y, In (UCase l ms) cs -> In m ms -> In y (localsM m) -> y <> rv /\ ~ In y ctxs).
      { intros l ms m y I J K'. apply LV. cbn [localsM]. apply in_or_app. right. apply in_flat_map. exists (UCase l ms). split; auto. apply in_flat_map. eauto. }
      clear LV. revert cases HC. induction cs as [|[l0 ms] cs IHc]; intros cases HC; cbn [parseCases] in HC.
      - injection HC as <-. constructor.
      - cbn [flat_map forallb] in *. apply incl_app_inv in I1 as [I1 J1].
        apply andb_true_iff in C3 as [C3 C4]. apply andb_true_iff in C3 as [D C3].
        assert (BODY : forall b, mapM (parseMember camel r rv) ms = Ok b -> wB G1 b G1).
        { intros b H2. eapply (members_w ms k b G1); [|exact H2|rewrite <- kfix_eq; exact C3|exact S1|exact I1|intros m y I; eapply LC; [left; reflexivity|exact I]].
          specialize (IH (UCase l0 ms) (or_introl eq_refl)). cbn [ucase_members] in IH. rewrite Forall_forall in IH. exact IH. }
        assert (REST : forall cases, parseCases camel r rv tag cs = Ok cases -> wC G1 cases).
        { intros cases' H3. apply IHc; auto; [intros x I; apply IH; right; auto|]. intros; eapply LC; eauto. right; eauto. }
        destruct l0 as [l|].
        + apply bind_ok in HC as (c & H1 & HC). apply bind_ok in HC as (b & H2 & HC). apply bind_ok in HC as (rest & H3 & HC). injection HC as <-.
          eapply wCsome; eauto.
        + apply bind_ok in HC as (b & H2 & HC). apply bind_ok in HC as (rest & H3 & HC). injection HC as <-. eapply wCnone; eauto. }
    destruct len as [c|].
    + apply bind_ok in P as (b & P & E). injection E as <-. cbn [localsM] in LV. destruct (LV "restore") as [R1 R2]; [left; reflexivity|].
      assert (SR : scopeW (("restore", KIn) :: G)) by (apply scopeW_push; auto; discriminate).
      destruct (constrained_w G c _ b P S) as (G' & OB); auto.
      * exists []. cbn [app]. split; [|split; [exact SR|apply look_here]]. apply wB_all. constructor; [|constructor]. apply wSwitch. auto.
      * eapply wBlock; eauto.
    + injection P as <-. eapply wBlock. apply wB_all. constructor; [|constructor]. apply wSwitch. auto.
  - cbn in P. injection P as <-. eapply wBlock. apply wB_all. constructor; [|constructor]. apply w_end.
  - cbn in P. injection P as <-. eapply wBlock. apply w_ret.
  - cbn in P. injection P as <-. eapply wBlock. apply wB_all. constructor; [|constructor]. apply w_cur; auto. apply v_empty.
Qed.
End Gen.

(** Calls. *)
Definition paramsK (camel : string -> string) (xs : list string) : kctx := map (fun x => (x, paramK camel x)) xs.
Definition sigsOf (camel : string -> string) (p : program) (ty : string) (ks : list kind) : Prop :=
  exists f, alookup ty (pmethods p) = Some f /\ ks = map (paramK camel) (fparams f).
Definition methodsW (camel : string -> string) (p : program) : Prop := forall ty f, alookup ty (pmethods p) = Some f ->
  exists G', wB (ptypes p) (sigsOf camel p) KIn ((frecv f, KObj ty) :: ("data", KIn) :: paramsK camel (fparams f)) (fbody f) G'.
Definition ctorsW (camel : string -> string) (p : program) : Prop := forall ty f, alookup ty (pctors p) = Some f ->
  exists G', wB (ptypes p) (sigsOf camel p) (KTy (GPtr ty)) (("data", KIn) :: paramsK camel (fparams f)) (fbody f) G'.

Lemma params_env : forall camel types xs vs, Forall2 (kv types) (map (paramK camel) xs) vs -> envV types (paramsK camel xs) (combine xs vs).
Proof.
  intros camel types. induction xs as [|x xs IH]; intros vs F; cbn [map] in F; inversion F; subst; cbn [paramsK map combine]; constructor; auto. apply IH. auto.
Qed.

Section Calls.
Variable camel : string -> string.
Variable p : program.
Hypothesis MW : methodsW camel p.

Lemma call_typed : forall n ty ks recv d vs, ofType (ptypes p) (GPtr ty) recv -> kv (ptypes p) KIn d -> sigsOf camel p ty ks -> Forall2 (kv (ptypes p)) ks vs ->
  (ofType (ptypes p) (GPtr ty) (fst (callMethod p n recv d vs)) /\ (recv <> VNil -> fst (callMethod p n recv d vs) <> VNil)) /\
  retPost (ptypes p) KIn (snd (callMethod p n recv d vs)).
Proof.
  induction n as [|n IH]; intros ty ks recv d vs OT KD (f & LF & ->) F.
  - inversion OT; subst; cbn [callMethod]; [split; auto; exact I|]. rewrite LF. split; [split; [auto|discriminate]|exact I].
  - assert (OT' := OT). inversion OT; subst; cbn [callMethod]; [split; auto; exact I|]. rewrite LF. destruct (MW ty f LF) as (G' & WB).
    destruct (exec_typed (ptypes p) (sigsOf camel p) KIn (callMethod p n) n) as (_ & SB & _).
    { intros ty0 ks0 recv0 d0 vs0 A1 A2 A3 A4. destruct (IH ty0 ks0 recv0 d0 vs0 A1 A2 A3 A4) as [[X _] Y]. auto. }
    assert (E0 : envV (ptypes p) ((frecv f, KObj ty) :: ("data", KIn) :: paramsK camel (fparams f)) ((frecv f, VStruct ty fs) :: ("data", d) :: combine (fparams f) vs)).
    { constructor; [split; [reflexivity|split; [exact OT'|discriminate]]|]. constructor; [split; [reflexivity|exact KD]|]. apply params_env; auto. }
    pose proof (SB _ _ _ WB _ E0) as P. pose proof (env_length _ _ _ E0) as L0.
    destruct (execs (ptypes p) (callMethod p n) n (fbody f) ((frecv f, VStruct ty fs) :: ("data", d) :: combine (fparams f) vs)) as [e1 rr].
    assert (X : exists d0, envV (ptypes p) (d0 ++ (frecv f, KObj ty) :: ("data", KIn) :: paramsK camel (fparams f)) e1).
    { unfold post in P. cbn [fst snd] in P. destruct (wB_grows _ _ _ _ _ _ WB) as [d0 ->]. destruct rr; [eauto| | |]; destruct P as [P _]; auto. }
    destruct X as [d0 X]. pose proof (env_leave _ _ _ _ _ X L0) as Y. cbn [fst snd]. split.
    + inversion Y as [|? [y v] ? ? [_ K] _]; subst. destruct K. auto.
    + unfold post in P. cbn [fst snd] in P. destruct rr; try exact I. now destruct P.
Qed.

Lemma ctor_typed : ctorsW camel p -> forall n ty ks d vs, kv (ptypes p) KIn d -> sigsOf camel p ty ks -> Forall2 (kv (ptypes p)) ks vs ->
  (forall f c, alookup ty (pmethods p) = Some f -> alookup ty (pctors p) = Some c -> fparams c = fparams f) ->
  retPost (ptypes p) (KTy (GPtr ty)) (callCtor p n ty d vs).
Proof.
  intros CW n ty ks d vs KD (f & LF & ->) F EP. unfold callCtor. destruct (alookup ty (pctors p)) as [c|] eqn:LC; [|exact I].
  destruct (CW ty c LC) as (G' & WB).
  destruct (exec_typed (ptypes p) (sigsOf camel p) (KTy (GPtr ty)) (callMethod p n) n) as (_ & SB & _).
  { intros ty0 ks0 recv0 d0 vs0 A1 A2 A3 A4. destruct (call_typed n ty0 ks0 recv0 d0 vs0 A1 A2 A3 A4) as [[X _] Y]. auto. }
  assert (E0 : envV (ptypes p) (("data", KIn) :: paramsK camel (fparams c)) (("data", d) :: combine (fparams c) vs)).
  { constructor; [split; [reflexivity|exact KD]|]. apply params_env. rewrite (EP f c LF eq_refl). auto. }
  pose proof (SB _ _ _ WB _ E0) as P. destruct (execs (ptypes p) (callMethod p n) n (fbody c) (("data", d) :: combine (fparams c) vs)) as [e1 rr].
  unfold post in P. cbn [fst snd] in *. destruct rr; try exact I. now destruct P.
Qed.
End Calls.

(** Packages. *)
Section Package.
Variable camel : string -> string.
Variable os : nat -> orders.
Variable fs : list file.
Variable r : resolver.
Variable p : program.
Hypothesis PK : package camel os fs r p.

Lemma type_sized : forall ctxs k t g, checkType r ctxs k t = true -> tipe camel r t = Ok g -> sized g = true.
Proof.
  intros ctxs k t g C T. assert (B : checkBase r ctxs t = true -> sized g = true) by (intros CB; exact (base_sized camel r ctxs t g CB T)).
  destruct t as [sz cst| | | |n|b0 i0|b0 [[rf|i0]|]]; cbn [checkType] in C; auto; cbn [tipe] in T.
  - apply andb_true_iff in C as [C CC]. apply bind_ok in T as (n & Hn & T). apply bind_ok in T as (h & TB & T). injection T as <-. cbn [sized]. apply andb_true_iff. split; [|exact (base_sized camel r ctxs b0 h C TB)].
    apply integerOf_value in Hn. unfold goodCount in CC. rewrite Hn in CC. lia.
  - apply bind_ok in T as (h & _ & T). now injection T as <-.
  - apply bind_ok in T as (h & _ & T). now injection T as <-.
  - apply bind_ok in T as (h & _ & T). now injection T as <-.
Qed.
Lemma struct_sized : forall s ds, In s (definedStructs fs) -> structDecl camel r s = Ok ds -> Forall (fun d => sized (snd d) = true) ds.
Proof.
  intros s ds I H. apply Forall_forall. intros [f g] J. cbn [snd]. pose proof (MemWordGen.struct_once _ _ _ _ _ PK s ds I H) as ND.
  destruct (MemWordGen.decl_types camel r s ds H ND f g) as (nm & t & J2 & _ & T); [now apply alookup_in|]. destruct (struct_types _ _ _ _ _ PK s I nm t J2) as [k C]. eapply type_sized; eauto.
Qed.
Lemma struct_sig : forall n t, Struct r n = Some t -> Extern t = false -> sigsOf camel p (camel n) (map (paramK camel) (scontexts t)) /\
  exists fl, alookup (camel n) (ptypes p) = Some fl /\ Forall (fun d => sized (snd d) = true) fl.
Proof.
  intros n t H E. destruct (pk_res _ _ _ _ _ PK n t H E) as (<- & I). destruct (gen_struct _ _ _ _ _ PK t I) as (ds & f & ct & Hds & Hf & _ & L1 & L2 & _). split.
  - exists f. split; auto. now rewrite (parse_params _ _ _ _ Hf).
  - exists ds. split; auto. eapply struct_sized; eauto.
Qed.
Lemma params_look : forall xs x, In x xs -> alookup x (paramsK camel xs) = Some (paramK camel x).
Proof.
  induction xs as [|y xs IH]; intros x I; [destruct I|]. unfold paramsK. cbn [map alookup]. destruct (String.eqb_spec x y); [now subst|]. destruct I as [->|I]; [congruence|]. now apply IH.
Qed.

Theorem methods_typed : methodsW camel p.
Proof.
  intros ty f L.
  assert (X : exists s, In s (definedStructs fs) /\ parseFunc camel r s = Ok f /\ ty = camel (sname s)).
  { pose proof (pk_gen _ _ _ _ _ PK) as G. unfold genProgram in G. apply bind_ok in G as (cs & Hc & H). apply bind_ok in H as (ss & Hs & H). injection H as E.
    assert (E1 : pmethods p = map (fun x => let '(n, _, f, _) := x in (n, f)) ss) by (rewrite <- E; reflexivity).
    rewrite E1 in L. apply alookup_some_in in L. apply in_map_iff in L as (x & EX & Ix). destruct (mapM_in_r _ _ _ _ Hs Ix) as (s & Is & Hx). unfold structureDecl in Hx.
    apply bind_ok in Hx as (ds & Hds & Hx). apply bind_ok in Hx as (f' & Hf & Hx). apply bind_ok in Hx as (ct & Hct & Hx). injection Hx as <-.
    injection EX as <- <-. eauto. }
  destruct X as (s & D & Hf & ->). pose proof (pk_check _ _ _ _ _ PK s D) as CK. unfold checkStruct in CK. apply andb_true_iff in CK as [CM CK]. unfold checkScope in CK.
  destruct (gen_struct _ _ _ _ _ PK s D) as (ds & f' & ct & Hds & _ & _ & L1 & _ & _).
  unfold parseFunc in Hf. apply bind_ok in Hf as (rv & Hrv & Hf). apply bind_ok in Hf as (ms & Hms & Hf). injection Hf as <-.
  rewrite Hrv in CK. repeat rewrite andb_true_iff in CK. rewrite !negb_true_iff, !memb_notin, disjointb_spec, nodupb_NoDup in CK.
  destruct CK as (((B6 & B7) & B8) & B9). cbn [frecv fparams fbody].
  assert (N1 : rv <> "cur") by (intros ->; apply B6; cbn; auto). assert (N2 : rv <> "data") by (intros ->; apply B6; cbn; auto).
  set (G0 := ("cur", KIn) :: (rv, KObj (camel (sname s))) :: ("data", KIn) :: paramsK camel (scontexts s)).
  assert (S : scopeW camel rv (camel (sname s)) (scontexts s) G0).
  { unfold G0. constructor.
    - apply look_here.
    - rewrite !look_push by congruence. apply look_here.
    - intros x I. rewrite !look_push; [apply params_look; auto| | |]; intros ->; [apply (B7 _ I); cbn; auto|contradiction|apply (B7 _ I); cbn; auto].
    - rewrite look_push by congruence. apply look_here. }
  exists G0. cbn [app]. eapply wCons; [eapply wDecl; apply v_var; rewrite look_push by congruence; apply look_here|]. fold G0.
  eapply wB_app.
  - repeat rewrite andb_true_iff in CM. destruct CM as [[[[_ _] CM] _] _].
    eapply members_w with (r := r) (camel := camel) (ctxs := scontexts s) (rv := rv) (ALL := flat_map allFields (members_of s)) (k := []);
      [|exact Hms|exact CM|exact S|apply incl_refl|].
    + intros m _. eapply member_w with (ds := ds).
      * exact struct_sig.
      * exact L1.
      * intros nm t I. destruct (structDecl_fields _ _ _ _ Hds) as [_ DT]. destruct (DT nm t I) as (g & T & J). exists g. split; auto. apply alookup_in; auto.
        eapply MemWordGen.struct_once; eauto.
    + intros m y I J. assert (K : In y ("cur" :: "data" :: "err" :: flat_map localsM (members_of s))) by (do 3 right; apply in_flat_map; eauto).
      split; [intros ->; contradiction|intros K'; eapply B7; eauto].
  - eapply wCons; [|constructor]. eapply wReturn; [apply v_var; apply S|apply v_nil|apply sub_refl|apply sub_nil; reflexivity].
Qed.

Theorem ctors_typed : ctorsW camel p.
Proof.
  intros ty f L.
  assert (X : exists s, In s (definedStructs fs) /\ ctorFunc camel s = Ok f /\ ty = camel (sname s)).
  { pose proof (pk_gen _ _ _ _ _ PK) as G. unfold genProgram in G. apply bind_ok in G as (cs & Hc & H). apply bind_ok in H as (ss & Hs & H). injection H as E.
    assert (E1 : pctors p = map (fun x => let '(n, _, _, c) := x in (n, c)) ss) by (rewrite <- E; reflexivity).
    rewrite E1 in L. apply alookup_some_in in L. apply in_map_iff in L as (x & EX & Ix). destruct (mapM_in_r _ _ _ _ Hs Ix) as (s & Is & Hx). unfold structureDecl in Hx.
    apply bind_ok in Hx as (ds & Hds & Hx). apply bind_ok in Hx as (f' & Hf & Hx). apply bind_ok in Hx as (ct & Hct & Hx). injection Hx as <-.
    injection EX as <- <-. eauto. }
  destruct X as (s & D & Hf & ->). pose proof (pk_check _ _ _ _ _ PK s D) as CK. unfold checkStruct in CK. apply andb_true_iff in CK as [CM CK]. unfold checkScope in CK.
  destruct (gen_struct _ _ _ _ _ PK s D) as (ds & f' & ct & Hds & Hf' & _ & L1 & L2 & _).
  unfold ctorFunc in Hf. apply bind_ok in Hf as (rv & Hrv & Hf). injection Hf as <-.
  rewrite Hrv in CK. repeat rewrite andb_true_iff in CK. rewrite !negb_true_iff, !memb_notin, disjointb_spec, nodupb_NoDup in CK.
  destruct CK as (((B6 & B7) & B8) & B9). cbn [frecv fparams fbody].
  assert (N2 : rv <> "data") by (intros ->; apply B6; cbn; auto). assert (N3 : rv <> "err") by (intros ->; apply B6; cbn; auto).
  eexists. eapply wCons; [eapply wDecl; eapply v_new; [exact L1|eapply struct_sized; eauto]|].
  eapply wCons; [eapply wParseDecl|].
  - apply p_var. apply look_here.
  - apply v_var. rewrite look_push by congruence. apply look_here.
  - exists f'. split; [exact L2|]. rewrite (parse_params _ _ _ _ Hf'). reflexivity.
  - assert (F : forall xs, incl xs (scontexts s) -> Forall2 (hasV (ptypes p) ((rv, KTy (GPtr (camel (sname s)))) :: ("data", KIn) :: paramsK camel (scontexts s))) (map EVar xs) (map (paramK camel) xs)).
    { induction xs as [|x xs IH]; intros I; cbn [map]; constructor; [|apply IH; intros y J; apply I; now right]. apply v_var.
      assert (J : In x (scontexts s)) by (apply I; now left). rewrite !look_push; [now apply params_look| |]; intros ->; [apply (B7 _ J); cbn; auto|contradiction]. }
    apply F. apply incl_refl.
  - eapply wCons; [eapply wIf|].
    + eapply wCons; [|constructor]. eapply wReturn; [apply v_nil|apply v_var; apply look_here|apply sub_nil; reflexivity|apply sub_refl].
    + eapply wCons; [|constructor]. eapply wReturn; [apply v_var; rewrite look_push by congruence; apply look_here|apply v_nil|apply sub_refl|apply sub_nil; reflexivity].
Qed.
End Package.
