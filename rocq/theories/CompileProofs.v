(** The generated code passes Go's static rules: statements. *)
From Coq Require Import ZArith String List Bool Lia ZifyBool ZifyNat.
From Verif Require Import Base Ast IntervalsModel InspectModel InspectSpec InspectProofs GoLang GenModel GenCheck GenSim GenSimBody GenSimProg
  WireFacts WireComplete PackageSpec PackageProofs GoTypes CompileCheck.
Import ListNotations.
Open Scope string_scope.
Open Scope list_scope.
Open Scope Z_scope.

Lemma inb_in : forall x l, inb x l = true <-> In x l.
Proof. exact memb_in. Qed.
Lemma distinct_NoDup : forall l, distinct l = true <-> NoDup l.
Proof. exact nodupb_NoDup. Qed.

Lemma geqb_refl : forall g, geqb g g = true.
Proof. induction g; cbn; auto; rewrite ?Z.eqb_refl, ?String.eqb_refl, ?IHg; auto. Qed.
Lemma sameG_refl : forall g, sameG g g = true.
Proof. intros g. apply geqb_refl. Qed.
Lemma norm_same : forall g h, norm g = norm h -> sameG g h = true.
Proof. intros g h E. unfold sameG. rewrite E. apply geqb_refl. Qed.

Lemma inRange_norm : forall g sz z, norm g = GUint sz -> inRange g z = (0 <=? z) && (z <? 2 ^ sz).
Proof. intros [] sz z E; cbn [norm] in E; try discriminate; injection E as <-; reflexivity. Qed.
Lemma isInt_norm : forall g sz, norm g = GUint sz -> isInt g = true.
Proof. intros [] sz E; cbn [norm] in E; try discriminate; reflexivity. Qed.

Lemma usesSs_app : forall x a b, usesSs x a = true -> usesSs x (a ++ b) = true.
Proof.
  intros x. induction a as [|s a IH]; intros b H; [discriminate|]. cbn [usesSs app] in *.
  destruct (usesS x s); [reflexivity|]. cbn [orb] in *.
  destruct s; auto; destruct (String.eqb x _); auto; discriminate.
Qed.

(** Statements that declare nothing. *)
Definition plain (s : stmt) : bool := match s with SDecl _ _ | SVar _ _ | SParseDecl _ _ _ _ => false | _ => true end.

(** Statements that do not declare [x]. *)
Definition keeps (x : string) (s : stmt) : Prop := match s with SDecl y _ | SVar y _ | SParseDecl y _ _ _ => y <> x | _ => True end.
Lemma usesSs_skip : forall x a b, Forall (keeps x) a -> usesSs x b = true -> usesSs x (a ++ b) = true.
Proof.
  intros x a b F H. induction F as [|s a K F IH]; auto. cbn [usesSs app]. rewrite IH.
  destruct s; cbn [keeps] in K; try apply orb_true_r; match goal with |- context [String.eqb x ?y] => destruct (String.eqb_spec x y); try congruence; apply orb_true_r end.
Qed.
Lemma plain_keeps : forall x s, plain s = true -> keeps x s.
Proof. intros x [] H; cbn in *; auto; discriminate. Qed.

Section Static.
Variable camel : string -> string.
Variable types : amap (list (string * gtype)).
Variable methods : amap func.
Variable pkg : list string.
Variable results : gtype * gtype.
Notation TypeE := (typeE types pkg).
Notation CheckS := (checkS camel types methods pkg results).
Notation CheckSs := (checkSs camel types methods pkg results).

Definition blockOk (G : scopes) (b : list stmt) : bool := match CheckSs ([] :: G) b with Some _ => true | None => false end.

Lemma checkS_if : forall G c b, CheckS G (SIf c b) = if match TypeE G c with Some Tbool => blockOk G b | _ => false end then Some G else None.
Proof. reflexivity. Qed.
Lemma checkS_while : forall G c b, CheckS G (SWhile c b) = if match TypeE G c with Some Tbool => blockOk G b | _ => false end then Some G else None.
Proof. reflexivity. Qed.
Lemma checkS_block : forall G b, CheckS G (SBlock b) = if blockOk G b then Some G else None.
Proof. reflexivity. Qed.
Lemma checkS_for : forall G x n b, CheckS G (SForLt x n b) =
  if goName x && match TypeE ([(x, Tg GInt)] :: G) (EBin BLt (EVar x) n) with Some Tbool => blockOk ([(x, Tg GInt)] :: G) b | _ => false end
  then Some G else None.
Proof. reflexivity. Qed.
Lemma checkS_switch : forall G cs, CheckS G (SSwitch cs) =
  if atMostOneDefault cs &&
     forallb (fun c => match fst c with
                       | None => true
                       | Some e => match TypeE G e with Some Tbool => true | _ => false end
                       end && blockOk G (snd c)) cs then Some G else None.
Proof. reflexivity. Qed.

Lemma checkSs_app : forall a b G G1 G2, CheckSs G a = Some G1 -> CheckSs G1 b = Some G2 -> CheckSs G (a ++ b) = Some G2.
Proof.
  induction a as [|s a IH]; intros b G G1 G2 H1 H2; cbn [checkSs app] in *; [congruence|].
  destruct (CheckS G s) as [G'|]; [|discriminate].
  assert (E : (if match s with SDecl y _ | SVar y _ | SParseDecl y _ _ _ => usesSs y (a ++ b) | _ => true end
               then CheckSs G' (a ++ b) else None) = CheckSs G' (a ++ b)).
  { destruct s; auto; destruct (usesSs _ a) eqn:U; try discriminate; now rewrite (usesSs_app _ _ _ U). }
  rewrite E. apply (IH b G' G1 G2); auto.
  destruct s; auto; destruct (usesSs _ a); auto; discriminate.
Qed.
Lemma checkSs_plain : forall s ss G, plain s = true -> CheckSs G (s :: ss) = match CheckS G s with Some G1 => CheckSs G1 ss | None => None end.
Proof. intros s ss G P. cbn [checkSs]. destruct (CheckS G s); auto. destruct s; try discriminate P; reflexivity. Qed.
Lemma checkSs_one : forall s G, plain s = true -> CheckSs G [s] = CheckS G s.
Proof. intros s G P. rewrite checkSs_plain by auto. destruct (CheckS G s); reflexivity. Qed.
Lemma checkSs_steps : forall ss G, Forall (fun s => plain s = true /\ CheckS G s = Some G) ss -> CheckSs G ss = Some G.
Proof.
  induction 1 as [|s ss [P H] F IH]; auto. rewrite checkSs_plain by auto. now rewrite H.
Qed.
Lemma blockOk_some : forall G b G1, CheckSs ([] :: G) b = Some G1 -> blockOk G b = true.
Proof. intros G b G1 H. unfold blockOk. now rewrite H. Qed.

Lemma lookup_decl : forall z y t sc G, lookupS z (((y, t) :: sc) :: G) = if String.eqb z y then Some t else lookupS z (sc :: G).
Proof. intros. cbn [lookupS alookup]. destruct (String.eqb z y); auto. Qed.
Lemma lookup_push : forall z G, lookupS z ([] :: G) = lookupS z G.
Proof. reflexivity. Qed.

Lemma type_lt : forall G a b s t g, TypeE G a = Some s -> TypeE G b = Some t -> common s t = Some g -> TypeE G (EBin BLt a b) = Some Tbool.
Proof. intros G a b s t g A B C. cbn [typeE]. now rewrite A, B, C. Qed.
Lemma type_gt : forall G a b s t g, TypeE G a = Some s -> TypeE G b = Some t -> common s t = Some g -> TypeE G (EBin BGt a b) = Some Tbool.
Proof. intros G a b s t g A B C. cbn [typeE]. now rewrite A, B, C. Qed.
Lemma type_sub : forall G a b s t g, TypeE G a = Some s -> TypeE G b = Some t -> common s t = Some g -> TypeE G (EBin BSub a b) = Some (Tg g).
Proof. intros G a b s t g A B C. cbn [typeE]. now rewrite A, B, C. Qed.
Lemma type_add : forall G a b s t g, TypeE G a = Some s -> TypeE G b = Some t -> common s t = Some g -> TypeE G (EBin BAdd a b) = Some (Tg g).
Proof. intros G a b s t g A B C. cbn [typeE]. now rewrite A, B, C. Qed.
Lemma type_from : forall G a b t g, TypeE G a = Some (Tg (GSlice g)) -> TypeE G b = Some t -> indexable t = true -> TypeE G (EFrom a b) = Some (Tg (GSlice g)).
Proof. intros G a b t g A B C. cbn [typeE]. now rewrite A, B, C. Qed.
Lemma type_to : forall G a b t g, TypeE G a = Some (Tg (GSlice g)) -> TypeE G b = Some t -> indexable t = true -> TypeE G (ETo a b) = Some (Tg (GSlice g)).
Proof. intros G a b t g A B C. cbn [typeE]. now rewrite A, B, C. Qed.
Lemma type_int : forall G z, TypeE G (EInt z) = Some (Tconst z).
Proof. reflexivity. Qed.
Lemma type_idx : forall G a b t g, TypeE G a = Some (Tg (GSlice g)) -> TypeE G b = Some t -> indexable t = true -> TypeE G (EIdx a b) = Some (Tg g).
Proof. intros G a b t g A B C. cbn [typeE]. now rewrite A, B, C. Qed.
Lemma type_aidx : forall G a b h n g, TypeE G a = Some (Tg (GArray n g)) -> TypeE G b = Some (Tg h) -> isInt h = true -> TypeE G (EIdx a b) = Some (Tg g).
Proof. intros G a b h n g A B C. cbn [typeE]. rewrite A, B. cbn [indexable]. now rewrite C. Qed.
Lemma checkS_if' : forall G c b, TypeE G c = Some Tbool -> blockOk G b = true -> CheckS G (SIf c b) = Some G.
Proof. intros G c b A B. rewrite checkS_if. now rewrite A, B. Qed.

Section Struct.
Variable rv : string.
Variable me : string.                 (* Go name of the struct *)
Variable ctxs : list string.
Variable stypes : list string.        (* struct types of the package *)
Hypothesis NRV : goName rv = true.
Hypothesis NCT : forall x, In x ctxs -> goName x = true.
Hypothesis PKG : forall x, In x usedNames -> inb x pkg = false.

(** What the generated code relies on in the scopes around it. *)
Record sound (G : scopes) : Prop := {
  so_recv : lookupS rv G = Some (Tg (GPtr me));
  so_cur : lookupS "cur" G = Some (Tg goBytesT);
  so_data : lookupS "data" G = Some (Tg goBytesT);
  so_ctx : forall x, In x ctxs -> lookupS x G = Some (Tstruct (camel x));
  so_used : forall x, In x usedNames -> lookupS x G = None;
  so_types : forall n, In n stypes -> lookupS n G = None }.

(** A local variable that hides none of these. *)
Record local (y : string) : Prop := {
  lo_name : goName y = true;
  lo_recv : y <> rv;
  lo_cur : y <> "cur";
  lo_data : y <> "data";
  lo_ctx : ~ In y ctxs;
  lo_used : ~ In y usedNames;
  lo_types : ~ In y stypes }.

Lemma sound_push : forall G, sound G -> sound ([] :: G).
Proof. intros G [A B C D E F]. constructor; auto. Qed.
Lemma sound_decl : forall y t sc G, sound (sc :: G) -> local y -> sound (((y, t) :: sc) :: G).
Proof.
  intros y t sc G [A B C D E F] [n a b c d e f]. constructor; intros; rewrite lookup_decl;
  match goal with |- (if String.eqb ?z y then _ else _) = _ => destruct (String.eqb_spec z y) as [X|X] end; auto; try congruence;
    try (subst; contradiction); try (rewrite X in *; contradiction).
Qed.
Lemma sound_builtin : forall G x, sound G -> In x usedNames -> builtin pkg G x = true.
Proof. intros G x S I. unfold builtin. rewrite (PKG x I), (so_used _ S x I). reflexivity. Qed.
Ltac used := solve [apply sound_builtin; [assumption|cbn; tauto]].

Lemma notblank : forall x, goName x = true -> String.eqb x "_" = false.
Proof.
  intros x H. destruct (String.eqb_spec x "_") as [->|]; auto.
Qed.
Lemma type_var : forall G x t, goName x = true -> lookupS x G = Some t -> TypeE G (EVar x) = Some t.
Proof. intros G x t N H. cbn [typeE]. now rewrite (notblank _ N). Qed.
Lemma type_cur : forall G, sound G -> TypeE G cur = Some (Tg goBytesT).
Proof. intros G S. apply type_var; [reflexivity|apply S]. Qed.
Lemma type_data : forall G, sound G -> TypeE G (EVar "data") = Some (Tg goBytesT).
Proof. intros G S. apply type_var; [reflexivity|apply S]. Qed.
Lemma type_len : forall G e g, sound G -> TypeE G e = Some (Tg (GSlice g)) -> TypeE G (ELen e) = Some (Tg GInt).
Proof. intros G e g S H. cbn [typeE]. rewrite H. replace (builtin pkg G "len") with true by (symmetry; used). reflexivity. Qed.
Lemma type_lencur : forall G, sound G -> TypeE G (ELen cur) = Some (Tg GInt).
Proof. intros G S. eapply type_len; eauto. apply (type_cur G S). Qed.

(** A bound on lengths: an [int] or a constant. *)
Definition bound (t : ty) : Prop := t = Tg GInt \/ exists z, t = Tconst z /\ 0 <= z < two63.
Lemma bound_common : forall t, bound t -> common (Tg GInt) t = Some GInt.
Proof.
  intros t [->|(z & -> & H)]; [reflexivity|]. cbn [common inRange]. replace ((- two63 <=? z) && (z <? two63)) with true; auto.
  unfold two63 in *. lia.
Qed.
Lemma bound_index : forall t, bound t -> indexable t = true.
Proof. intros t [->|(z & -> & H)]; [reflexivity|]. cbn [indexable]. lia. Qed.

Hypothesis RES : results = (goBytesT, GError).
Lemma ret_ok : forall G m, sound G -> CheckSs ([] :: G) [retErr m] = Some ([] :: G).
Proof.
  intros G m S. apply sound_push in S. rewrite checkSs_one by reflexivity. unfold retErr. cbn [checkS]. rewrite RES. unfold fits. cbn [fst snd typeE].
  replace (builtin pkg ([] :: G) "nil") with true by (symmetry; used).
  replace (builtin pkg ([] :: G) "errors") with true by (symmetry; used). reflexivity.
Qed.
Lemma ret_block : forall G m, sound G -> blockOk G [retErr m] = true.
Proof. intros G m S. exact (blockOk_some _ _ _ (ret_ok G m S)). Qed.
Lemma lengthCheck_ok : forall G e t, sound G -> TypeE G e = Some t -> bound t -> CheckS G (lengthCheck e) = Some G.
Proof.
  intros G e t S H B. unfold lengthCheck. apply checkS_if'; [|now apply ret_block].
  eapply type_lt; [exact (type_lencur G S)|exact H|exact (bound_common t B)].
Qed.
Lemma more_ok : forall G, sound G -> TypeE G (EBin BGt (ELen cur) (EInt 0)) = Some Tbool.
Proof. intros G S. eapply type_gt; [exact (type_lencur G S)|reflexivity|reflexivity]. Qed.
Lemma assertEnd_ok : forall G, sound G -> CheckS G assertEnd = Some G.
Proof. intros G S. unfold assertEnd. apply checkS_if'; [now apply more_ok|now apply ret_block]. Qed.
Lemma assign_ok : forall G l e g t, placeOf types pkg G l = Some g -> TypeE G e = Some t -> assignable t g = true -> CheckS G (SAssign l e) = Some G.
Proof. intros G l e g t H1 H2 H3. cbn [checkS]. unfold assigns, fits. now rewrite H1, H2, H3. Qed.
Lemma place_cur : forall G, sound G -> placeOf types pkg G (LVar "cur") = Some goBytesT.
Proof. intros G S. unfold placeOf. change (lexpr (LVar "cur")) with cur. now rewrite (type_cur G S). Qed.
Lemma cut_ok : forall G e t, sound G -> TypeE G e = Some t -> bound t -> CheckS G (SAssign (LVar "cur") (EFrom cur e)) = Some G.
Proof.
  intros G e t S H B. apply (assign_ok G _ _ goBytesT (Tg goBytesT)); [apply (place_cur G S)| |apply (sameG_refl goBytesT)].
  eapply type_from; [exact (type_cur G S)|exact H|exact (bound_index t B)].
Qed.

(** Conditions. *)
Variable r : resolver.
Lemma clause_ok : forall G v g sz x c, TypeE G v = Some (Tg g) -> norm g = GUint sz ->
  clauseOf r v x = Ok c -> fitsList r sz [x] = true -> TypeE G c = Some Tbool.
Proof.
  intros G v g sz x c H N C F. unfold fitsList in F. cbn [forallb] in F. rewrite andb_true_r in F. unfold range_bounds in F.
  unfold clauseOf in C. destruct (rhigh x) as [h|].
  - apply bind_ok in C as (l & Hl & C). apply bind_ok in C as (h' & Hh & C). injection C as <-.
    apply integerOf_value in Hl. apply integerOf_value in Hh. rewrite Hl, Hh in F. cbn [typeE]. rewrite H. cbn [common].
    rewrite !(inRange_norm g sz) by auto. replace ((0 <=? l) && (l <? 2 ^ sz)) with true by lia.
    replace ((0 <=? h') && (h' <? 2 ^ sz)) with true by lia. reflexivity.
  - apply bind_ok in C as (l & Hl & C). injection C as <-. apply integerOf_value in Hl. rewrite Hl in F. cbn [typeE]. rewrite H. cbn [common].
    rewrite !(inRange_norm g sz) by auto. replace ((0 <=? l) && (l <? 2 ^ sz)) with true by lia. reflexivity.
Qed.
Lemma join_ok : forall G cs c, TypeE G c = Some Tbool -> Forall (fun c => TypeE G c = Some Tbool) cs ->
  TypeE G (fold_left (fun a b => EBin BOr a b) cs c) = Some Tbool.
Proof.
  intros G cs. induction cs as [|d cs IH]; intros c H F; auto. inversion F as [|? ? H1 H2]; subst. cbn [fold_left]. apply IH; auto.
  cbn [typeE]. now rewrite H, H1.
Qed.
Lemma cond_ok : forall G v g sz l c, TypeE G v = Some (Tg g) -> norm g = GUint sz ->
  conditional r v l = Ok c -> fitsList r sz l = true -> l <> [] -> TypeE G c = Some Tbool.
Proof.
  intros G v g sz l c H N C F NE. unfold conditional in C. apply bind_ok in C as (cs & M & C). injection C as <-.
  assert (A : Forall (fun c => TypeE G c = Some Tbool) cs).
  { clear NE. revert cs M F. induction l as [|x l IH]; intros cs M F; cbn [mapM] in M.
    - injection M as <-. constructor.
    - apply bind_ok in M as (c & Hc & M). apply bind_ok in M as (cs' & Hcs & M). injection M as <-.
      unfold fitsList in F. cbn [forallb] in F. apply andb_true_iff in F as [F1 F2]. constructor; auto.
      apply (clause_ok G v g sz x c H N Hc). unfold fitsList. cbn [forallb]. now rewrite F1. }
  destruct l as [|x l]; [congruence|]. cbn [mapM] in M. apply bind_ok in M as (c & Hc & M). apply bind_ok in M as (cs' & Hcs & M). injection M as <-.
  cbn [joinOr]. inversion A; subst. now apply join_ok.
Qed.

Lemma size_cases : forall sz, goodSize sz = true -> sz = 8 \/ sz = 16 \/ sz = 32 \/ sz = 64.
Proof. intros sz H. unfold goodSize in H. lia. Qed.

Lemma int_ok : forall G lhs sz cst g ss, sound G -> placeOf types pkg G lhs = Some g -> norm g = GUint sz -> goodSize sz = true ->
  parseIntType r lhs sz cst = Ok ss -> (forall l, cst = Some l -> l <> [] /\ fitsList r sz l = true) -> CheckSs G ss = Some G.
Proof.
  intros G lhs sz cst g ss S PL N GS H C. unfold parseIntType in H. apply bind_ok in H as (chk & Hc & H). injection H as <-.
  assert (T : TypeE G (lexpr lhs) = Some (Tg g)).
  { unfold placeOf in PL. destruct (TypeE G (lexpr lhs)) as [[]|]; try discriminate. congruence. }
  assert (BN : bound (Tconst (sz / 8))).
  { right. exists (sz / 8). split; auto. unfold two63. destruct (size_cases _ GS) as [-> |[->|[->| ->]]]; cbv; split; congruence. }
  apply checkSs_steps. constructor; [|constructor; [|apply Forall_app; split]].
  - split; [reflexivity|]. apply (lengthCheck_ok G _ (Tconst (sz / 8))); auto.
  - split; [destruct (sz / 8 =? 1); reflexivity|]. destruct (sz / 8 =? 1) eqn:E.
    + eapply assign_ok; [exact PL| |].
      * eapply type_idx; [exact (type_cur G S)|reflexivity|reflexivity].
      * cbn [assignable]. apply norm_same. rewrite N. destruct (size_cases _ GS) as [-> |[->|[->| ->]]]; cbv in E; try discriminate; reflexivity.
    + eapply assign_ok; [exact PL| |].
      * cbn [typeE]. rewrite (type_cur G S).
        replace (builtin pkg G "binary") with true by (symmetry; used).
        change (isBytes (Tg goBytesT)) with true. cbn [andb].
        replace ((sz =? 16) || (sz =? 32) || (sz =? 64)) with true; [reflexivity|].
        destruct (size_cases _ GS) as [-> |[->|[->| ->]]]; cbv in E; try discriminate; reflexivity.
      * cbn [assignable]. apply norm_same. now rewrite N.
  - destruct cst as [l|]; [|injection Hc as <-; constructor].
    apply bind_ok in Hc as (c & Hc & E). injection E as <-. destruct (C l eq_refl) as [NE F]. constructor; [|constructor].
    split; [reflexivity|]. apply checkS_if'; [|now apply ret_block]. cbn [typeE]. now rewrite (cond_ok G _ g sz l c T N Hc F NE).
  - constructor; [|constructor]. split; [reflexivity|]. apply (cut_ok G _ (Tconst (sz / 8))); auto.
Qed.

Lemma int_plain : forall lhs sz cst ss, parseIntType r lhs sz cst = Ok ss -> Forall (fun s => plain s = true) ss.
Proof.
  intros lhs sz cst ss H. unfold parseIntType in H. apply bind_ok in H as (chk & Hc & H). injection H as <-.
  constructor; [reflexivity|]. constructor; [destruct (sz / 8 =? 1); reflexivity|]. apply Forall_app. split; [|repeat constructor].
  destruct cst; [|injection Hc as <-; constructor]. apply bind_ok in Hc as (c & Hc & E). injection E as <-. repeat constructor.
Qed.

(** Structs a field can refer to. *)
Hypothesis METH : forall n s, Struct r n = Some s -> Extern s = false ->
  (exists f, alookup (camel n) methods = Some f /\ fparams f = scontexts s) /\
  In (camel n) stypes /\ exists fs, alookup (camel n) types = Some fs.

Lemma typeOk_base : forall G c b g, (forall x, In x usedNames -> lookupS x G = None) -> (forall n, In n stypes -> lookupS n G = None) ->
  checkBase r c b = true -> tipe camel r b = Ok g -> typeOk types pkg G g = true.
Proof.
  intros G c b g U T C H.
  assert (B : forall x, In x usedNames -> builtin pkg G x = true).
  { intros x I. unfold builtin. now rewrite (PKG x I), (U x I). }
  destruct b as [sz cst| | | |n| |]; cbn [checkBase tipe] in *; try discriminate; injection H as <-.
  - unfold checkInt in C. apply andb_true_iff in C as [C _].
    destruct (size_cases _ C) as [-> |[->|[->| ->]]]; cbn [typeOk Z.eqb Pos.eqb]; apply B; cbn; tauto.
  - apply B; cbn; tauto.
  - apply B; cbn; tauto.
  - apply B; cbn; tauto.
  - destruct (Struct r n) as [s|] eqn:E; [|discriminate]. apply andb_true_iff in C as [C _]. apply negb_true_iff in C.
    destruct (METH n s E C) as (_ & I & fs & F). cbn [typeOk]. now rewrite F, (T _ I).
Qed.
Lemma sound_typeOk : forall G c b g, sound G -> checkBase r c b = true -> tipe camel r b = Ok g -> typeOk types pkg G g = true.
Proof. intros G c b g S. apply typeOk_base; apply S. Qed.

Definition fitsB (b : type) : bool := match b with TInt sz (Some l) => fitsList r sz l | _ => true end.

Lemma definedList_ne : forall l, definedList r l = true -> l <> [].
Proof. intros [|] H E; discriminate. Qed.

(** Declaring a local variable. *)
Lemma declare_local : forall y t sc G, local y -> alookup y sc = None -> declare y t (sc :: G) = Some (((y, t) :: sc) :: G).
Proof. intros y t sc G L A. unfold declare. now rewrite (lo_name _ L), A. Qed.

(** Code for a type that is not an array. *)
Lemma base_ok : forall b lhs g ss sc G, checkBase r ctxs b = true -> fitsB b = true -> parseType camel r rv lhs b = Ok ss -> tipe camel r b = Ok g ->
  sound (sc :: G) -> (forall y, In y (localsT b) -> local y /\ alookup y sc = None) ->
  (forall H, sound H -> (forall z, ~ In z (localsT b) -> lookupS z H = lookupS z (sc :: G)) -> placeOf types pkg H lhs = Some g) ->
  exists G1, CheckSs (sc :: G) ss = Some G1 /\ sound G1 /\ (forall z, ~ In z (localsT b) -> lookupS z G1 = lookupS z (sc :: G)) /\
             (forall z, ~ In z (localsT b) -> Forall (keeps z) ss).
Proof.
  intros b lhs g ss sc G C F P T S L PL.
  assert (KI : forall z, Forall (fun s => plain s = true) ss -> Forall (keeps z) ss).
  { intros z X. rewrite Forall_forall in *. intros s I. apply plain_keeps. auto. }
  destruct b as [sz cst| | | |n| |]; cbn [checkBase tipe localsT] in *; try discriminate; injection T as <-.
  - exists (sc :: G). cbn [parseType] in P. unfold checkInt in C. apply andb_true_iff in C as [C1 C2]. split; [|split; [solve [auto]|split; [solve [auto]|]]].
    + apply (int_ok _ lhs sz cst (GUint sz)); [exact S|apply PL; auto|reflexivity|exact C1|exact P|]. intros l ->. cbn [fitsB] in F. split; auto. apply definedList_ne. exact C2.
    + intros z _. apply KI. eapply int_plain; eauto.
  - exists (sc :: G). cbn [parseType] in P. split; [|split; [solve [auto]|split; [solve [auto]|]]].
    + apply (int_ok _ lhs 8 None GByte); [exact S|apply PL; auto|reflexivity|reflexivity|exact P|]. intros l; discriminate.
    + intros z _. apply KI. eapply int_plain; eauto.
  - exists (sc :: G). cbn [parseType] in P. injection P as <-. split; [|split; [solve [auto]|split; [solve [auto]|]]].
    + rewrite checkSs_one by reflexivity. apply (assign_ok _ lhs _ GInt (Tg GInt)); [apply PL; auto| |apply (sameG_refl GInt)].
      eapply type_sub; [eapply type_len; [auto|exact (type_data _ S)]|exact (type_lencur _ S)|reflexivity].
    + intros z _. apply KI. repeat constructor.
  - destruct (L "i" (or_introl eq_refl)) as [LI AI]. cbn [parseType] in P. injection P as <-.
    set (G1 := (("i", Tg GInt) :: sc) :: G). assert (S1 : sound G1) by (apply sound_decl; auto).
    assert (SAME : forall z, ~ In z ["i"] -> lookupS z G1 = lookupS z (sc :: G)).
    { intros z N. unfold G1. rewrite lookup_decl. destruct (String.eqb_spec z "i") as [->|]; auto. exfalso. apply N. cbn. auto. }
    assert (TI : TypeE G1 (EVar "i") = Some (Tg GInt)) by reflexivity.
    exists G1. split; [|split; [solve [auto]|split; [solve [auto]|]]].
    + cbn [checkSs].
      assert (D : CheckS (sc :: G) (SDecl "i" (EIndexByte cur 0)) = Some G1).
      { cbn [checkS typeE]. rewrite (type_cur _ S). replace (builtin pkg (sc :: G) "bytes") with true by (symmetry; used).
        change (isBytes (Tg goBytesT)) with true. cbn [andb inRange]. apply declare_local; auto. }
      rewrite D. replace (usesSs "i" _) with true.
      assert (A1 : CheckS G1 (SIf (EBin BLt (EVar "i") (EInt 0)) [retErr "could not parse nul-term string"]) = Some G1).
      { apply checkS_if'; [|now apply ret_block]. eapply type_lt; [exact TI|reflexivity|reflexivity]. }
      assert (A2 : CheckS G1 (SAssign2 lhs (LVar "cur") (EStringOf (ETo cur (EVar "i"))) (EFrom cur (EBin BAdd (EVar "i") (EInt 1)))) = Some G1).
      { cbn [checkS]. unfold assigns, fits. rewrite (PL G1 S1 SAME), (place_cur G1 S1).
        replace (TypeE G1 (EStringOf (ETo cur (EVar "i")))) with (Some (Tg GString)).
        2:{ pose proof (type_to G1 cur (EVar "i") (Tg GInt) GByte (type_cur G1 S1) TI eq_refl) as X. revert X.
            generalize (ETo cur (EVar "i")). intros e X. cbn [typeE]. rewrite X.
            change (isBytes (Tg (GSlice GByte))) with true. now replace (builtin pkg G1 "string") with true by (symmetry; used). }
        replace (TypeE G1 (EFrom cur (EBin BAdd (EVar "i") (EInt 1)))) with (Some (Tg goBytesT)); [reflexivity|].
        symmetry. eapply type_from; [exact (type_cur G1 S1)| |].
        { eapply type_add; [exact TI|reflexivity|reflexivity]. } reflexivity. }
      now rewrite A1, A2.
    + intros z N. constructor; [|repeat constructor]. cbn. intros <-. apply N. cbn. auto.
  - destruct (L "err" (or_introl eq_refl)) as [LI AI]. cbn [parseType] in P. destruct (Struct r n) as [s|] eqn:E; [|discriminate].
    injection P as <-. apply andb_true_iff in C as [C1 C2]. apply negb_true_iff in C1. rewrite forallb_forall in C2.
    destruct (METH n s E C1) as ((f & MF & FP) & IS & fl & FL).
    set (G1 := (("err", Tg GError) :: sc) :: G). assert (S1 : sound G1) by (apply sound_decl; auto).
    assert (SAME : forall z, ~ In z ["err"] -> lookupS z G1 = lookupS z (sc :: G)).
    { intros z N. unfold G1. rewrite lookup_decl. destruct (String.eqb_spec z "err") as [->|]; auto. exfalso. apply N. cbn. auto. }
    assert (TE : TypeE G1 (EVar "err") = Some (Tg GError)) by reflexivity.
    pose proof (PL G1 S1 SAME) as PL1.
    assert (TL : TypeE G1 (lexpr lhs) = Some (Tg (GPtr (camel n)))).
    { unfold placeOf in PL1. destruct (TypeE G1 (lexpr lhs)) as [[]|]; try discriminate. congruence. }
    exists G1. split; [|split; [solve [auto]|split; [solve [auto]|]]].
    + assert (D : CheckS (sc :: G) (SVar "err" GError) = Some G1).
      { cbn [checkS typeOk]. replace (builtin pkg (sc :: G) "error") with true by (symmetry; used). apply declare_local; auto. }
      cbn [checkSs]. rewrite D.
      replace (usesSs "err" _) with true.
      2:{ symmetry. cbn [usesSs usesS]. now rewrite !orb_true_r. }
      assert (A1 : CheckS G1 (SAssign lhs (ENew (camel n))) = Some G1).
      { apply (assign_ok G1 lhs _ (GPtr (camel n)) (Tg (GPtr (camel n)))); [auto| |apply (sameG_refl (GPtr (camel n)))].
        cbn [typeE typeOk]. replace (builtin pkg G1 "new") with true by (symmetry; used). now rewrite FL, (so_types _ S1 _ IS). }
      assert (A2 : CheckS G1 (SParse "cur" "err" lhs cur (map EVar (scontexts s))) = Some G1).
      { cbn [checkS]. rewrite (place_cur G1 S1). unfold callOk. rewrite TL, MF. unfold fits. rewrite (type_cur G1 S1).
        change (assignable (Tg goBytesT) goBytesT) with true. rewrite map_length, FP, PeanoNat.Nat.eqb_refl.
        replace (forallb _ (combine (map EVar (scontexts s)) (scontexts s))) with true; [reflexivity|].
        symmetry. clear - C2 S1 NCT. induction (scontexts s) as [|x l IH]; auto. cbn [map combine forallb fst snd].
        assert (I : In x ctxs) by (apply memb_in; apply C2; cbn; auto).
        rewrite (type_var G1 x (Tstruct (camel x))); [|auto|now apply (so_ctx _ S1)]. rewrite String.eqb_refl. apply IH.
        intros y Hy. apply C2. cbn. auto. }
      assert (A3 : CheckS G1 (SIf (ENotNil (EVar "err")) [SReturn ENil (EVar "err")]) = Some G1).
      { apply checkS_if'.
        - cbn [typeE]. change (if String.eqb "err" "_" then None else lookupS "err" G1) with (TypeE G1 (EVar "err")). rewrite TE. cbn [nilable].
          now replace (builtin pkg G1 "nil") with true by (symmetry; used).
        - unfold blockOk. rewrite checkSs_one by reflexivity. cbn [checkS]. rewrite RES. unfold fits.
          change (TypeE ([] :: G1) (EVar "err")) with (TypeE G1 (EVar "err")). rewrite TE. cbn [typeE].
          apply sound_push in S1. now replace (builtin pkg ([] :: G1) "nil") with true by (symmetry; used). }
      now rewrite A1, A2, A3.
    + intros z N. constructor; [|repeat constructor]. cbn. intros <-. apply N. cbn. auto.
Qed.

(** Fields of the struct and of its contexts. *)
Variable flds : list (string * gtype).
Hypothesis MINE : alookup me types = Some flds.
Hypothesis CTX : forall x n sz, ctxField r ctxs x n = Some sz ->
  exists fs, alookup (camel x) types = Some fs /\ alookup (camel n) fs = Some (GUint sz).
Definition knows (k : known) : Prop := forall n sz, alookup n k = Some sz -> alookup (camel n) flds = Some (GUint sz).

Lemma type_field : forall G f g, sound G -> alookup f flds = Some g -> TypeE G (ESel (EVar rv) f) = Some (Tg g).
Proof. intros G f g S H. cbn [typeE]. rewrite (notblank _ NRV), (so_recv _ S), MINE, H. reflexivity. Qed.
Lemma place_field : forall G f g, sound G -> alookup f flds = Some g -> placeOf types pkg G (LField (LVar rv) f) = Some g.
Proof. intros G f g S H. unfold placeOf. cbn [lexpr]. now rewrite (type_field G f g S H). Qed.
Lemma type_ref : forall G k f sz, sound G -> knows k -> refWidth r ctxs k f = Some sz -> TypeE G (refExpr camel rv f) = Some (Tg (GUint sz)).
Proof.
  intros G k f sz S K H. unfold refWidth in H. unfold refExpr. destruct (String.eqb (rscope f) "").
  - apply type_field; auto.
  - destruct (CTX _ _ _ H) as (fs & H1 & H2). unfold ctxField in H. destruct (memb (rscope f) ctxs) eqn:M; [|discriminate]. apply memb_in in M.
    cbn [typeE]. rewrite (notblank _ (NCT _ M)), (so_ctx _ S _ M), H1, H2. reflexivity.
Qed.
Lemma type_refint : forall G k f sz, sound G -> knows k -> refWidth r ctxs k f = Some sz -> TypeE G (EToInt (refExpr camel rv f)) = Some (Tg GInt).
Proof.
  intros G k f sz S K H. pose proof (type_ref G k f sz S K H) as X. revert X. generalize (refExpr camel rv f). intros e X.
  cbn [typeE]. rewrite X. now replace (builtin pkg G "int") with true by (symmetry; used).
Qed.

Definition goodLen (k : known) (c : lconstraint) : bool :=
  match c with LRef f => match refWidth r ctxs k f with Some _ => true | None => false end | LLeftover i => goodCount r i end.

Lemma goodCount_bound : forall i z, goodCount r i = true -> integerOf r i = Ok z -> 0 <= z < two63.
Proof. intros i z H E. apply integerOf_value in E. unfold goodCount in H. rewrite E in H. lia. Qed.

Lemma constrained_ok : forall G k c body ss, sound ([] :: G) -> knows k -> goodLen k c = true -> local "restore" ->
  constrained camel r rv c body = Ok ss ->
  (forall H, sound H -> Forall (fun s => plain s = true /\ CheckS H s = Some H) body) ->
  exists G1, CheckSs ([] :: G) ss = Some G1.
Proof.
  intros G k c body ss S K C L H B. unfold constrained in H. apply bind_ok in H as ([chk n] & Hc & H). injection H as <-.
  set (G0 := [] :: G) in *. set (G1 := [("restore", Tg goBytesT)] :: G). assert (S1 : sound G1) by (apply sound_decl; auto).
  assert (X : exists e t, chk = lengthCheck e /\ TypeE G0 e = Some t /\ bound t /\ forall H, sound H -> TypeE H n = Some (Tg GInt)).
  { destruct c as [f|i]; cbn [goodLen] in C.
    - injection Hc as <- <-. destruct (refWidth r ctxs k f) as [sz|] eqn:RW; [|discriminate].
      exists (EToInt (refExpr camel rv f)), (Tg GInt). split; [reflexivity|]. split; [eapply type_refint; eauto|]. split; [left; auto|].
      intros H SH. eapply type_refint; eauto.
    - apply bind_ok in Hc as (z & Hz & E). injection E as <- <-. pose proof (goodCount_bound _ _ C Hz) as BZ.
      exists (EInt z), (Tconst z). split; [reflexivity|]. split; [reflexivity|]. split; [right; eauto|].
      intros H SH. eapply type_sub; [exact (type_lencur H SH)|reflexivity|]. apply bound_common. right. eauto. }
  destruct X as (e & t & -> & TE & BT & TN).
  exists G1. change ([lengthCheck e; SDecl "restore" (EFrom cur n); SAssign (LVar "cur") (ETo cur n)] ++ body ++ [assertEnd; SAssign (LVar "cur") (EVar "restore")])
    with (lengthCheck e :: SDecl "restore" (EFrom cur n) :: ([SAssign (LVar "cur") (ETo cur n)] ++ body ++ [assertEnd; SAssign (LVar "cur") (EVar "restore")])).
  rewrite checkSs_plain by reflexivity. rewrite (lengthCheck_ok G0 e t S TE BT).
  match goal with |- context [SDecl "restore" _ :: ?l] => set (rest := l) end.
  assert (ER : rest = [SAssign (LVar "cur") (ETo cur n)] ++ body ++ [assertEnd; SAssign (LVar "cur") (EVar "restore")]) by reflexivity.
  clearbody rest.
  assert (FR : Forall (fun s => plain s = true /\ CheckS G1 s = Some G1) rest).
  { rewrite ER. apply Forall_app. split; [|apply Forall_app; split; [auto|]].
    - constructor; [|constructor]. split; [reflexivity|]. apply (assign_ok G1 _ _ goBytesT (Tg goBytesT)); [apply (place_cur G1 S1)| |reflexivity].
      eapply type_to; [exact (type_cur G1 S1)|apply (TN G1 S1)|reflexivity].
    - constructor; [|constructor; [|constructor]]; (split; [reflexivity|]).
      + now apply assertEnd_ok.
      + apply (assign_ok G1 _ _ goBytesT (Tg goBytesT)); [apply (place_cur G1 S1)|reflexivity|reflexivity]. }
  assert (U : usesSs "restore" rest = true).
  { rewrite ER, app_assoc. apply usesSs_skip; [|reflexivity]. apply Forall_app. split; [repeat constructor|].
    specialize (B G1 S1). rewrite Forall_forall in *. intros s I. apply plain_keeps. apply B. auto. }
  cbn [checkSs].
  assert (D : CheckS G0 (SDecl "restore" (EFrom cur n)) = Some G1).
  { pose proof (type_from G0 cur n (Tg GInt) GByte (type_cur G0 S) (TN G0 S) eq_refl) as X. revert X. generalize (EFrom cur n). intros e' X.
    cbn [checkS]. rewrite X. apply declare_local; auto. }
  rewrite D, U. now apply checkSs_steps.
Qed.

Lemma fitsT_base : forall c b, checkBase r c b = true -> fitsT r b = true -> fitsB b = true.
Proof. intros c [] C F; cbn in *; auto; discriminate. Qed.
Lemma localsT_idx : forall c b, checkBase r c b = true -> ~ In "idx" (localsT b) /\ ~ In "tmp" (localsT b) /\ forall y, In y (localsT b) -> y <> "idx" /\ y <> "tmp".
Proof.
  intros c b C. assert (X : forall y, In y (localsT b) -> y <> "idx" /\ y <> "tmp").
  { intros y I. destruct b; cbn in *; try contradiction; try discriminate; destruct I as [<-|[]]; split; discriminate. }
  split; [|split]; auto; intros I; apply X in I as [I1 I2]; congruence.
Qed.

Lemma loop_ok : forall G lhs b g n t body, sound G -> checkBase r ctxs b = true -> fitsB b = true -> tipe camel r b = Ok g ->
  (forall y, In y ("idx" :: localsT b) -> local y) ->
  parseType camel r rv (LIdx lhs (EVar "idx")) b = Ok body ->
  (forall H, sound H -> TypeE H n = Some t) -> bound t ->
  (forall H, sound H -> TypeE H (lexpr lhs) = Some (Tg (GSlice g)) \/ exists z, TypeE H (lexpr lhs) = Some (Tg (GArray z g))) ->
  CheckS G (SForLt "idx" n body) = Some G.
Proof.
  intros G lhs b g n t body S C F T L P TN BT TL. rewrite checkS_for.
  set (G1 := [("idx", Tg GInt)] :: G).
  assert (S1 : sound G1) by (apply sound_decl; [now apply sound_push|apply L; cbn; auto]).
  rewrite (type_lt G1 (EVar "idx") n (Tg GInt) t GInt eq_refl (TN G1 S1) (bound_common t BT)).
  destruct (localsT_idx _ _ C) as (N1 & N2 & N3).
  destruct (base_ok b (LIdx lhs (EVar "idx")) g body [] G1 C F P T (sound_push _ S1)) as (G2 & H2 & _).
  - intros y I. split; auto. apply L. cbn. auto.
  - intros H SH SAME. assert (TI : TypeE H (EVar "idx") = Some (Tg GInt)).
    { apply type_var; [reflexivity|]. rewrite (SAME "idx" N1). reflexivity. }
    unfold placeOf. cbn [lexpr]. destruct (TL H SH) as [X|(z & X)].
    + now rewrite (type_idx H _ _ _ g X TI eq_refl).
    + now rewrite (type_aidx H _ _ _ z g X TI eq_refl).
  - rewrite (blockOk_some _ _ _ H2). reflexivity.
Qed.

Lemma while_ok : forall G f b g body, sound G -> checkBase r ctxs b = true -> fitsB b = true -> tipe camel r b = Ok g ->
  alookup f flds = Some (GSlice g) ->
  (forall y, In y ("tmp" :: localsT b) -> local y) ->
  parseType camel r rv (LVar "tmp") b = Ok body ->
  CheckS G (SWhile (EBin BGt (ELen cur) (EInt 0))
    ([SVar "tmp" g] ++ body ++ [SAssign (LField (LVar rv) f) (EAppend (lexpr (LField (LVar rv) f)) (EVar "tmp"))])) = Some G.
Proof.
  intros G f b g body S C F T FL L P. rewrite checkS_while, (more_ok G S).
  set (G1 := [("tmp", Tg g)] :: G).
  assert (S0 : sound ([] :: G)) by now apply sound_push.
  assert (S1 : sound G1) by (apply sound_decl; [auto|apply L; cbn; auto]).
  destruct (localsT_idx _ _ C) as (N1 & N2 & N3).
  destruct (base_ok b (LVar "tmp") g body [("tmp", Tg g)] G C F P T S1) as (G2 & H2 & S2 & SAME & KP).
  - intros y I. split; [apply L; cbn; auto|]. cbn [alookup]. destruct (String.eqb_spec y "tmp") as [X|]; auto. apply N3 in I. tauto.
  - intros H SH SAME. unfold placeOf. cbn [lexpr]. rewrite (type_var H "tmp" (Tg g)); [reflexivity|reflexivity|].
    rewrite (SAME "tmp" N2). reflexivity.
  - unfold blockOk. set (last := SAssign (LField (LVar rv) f) (EAppend (lexpr (LField (LVar rv) f)) (EVar "tmp"))).
    assert (D : CheckS ([] :: G) (SVar "tmp" g) = Some G1).
    { cbn [checkS]. rewrite (sound_typeOk _ ctxs b g S0 C T). apply declare_local; [apply L; cbn; auto|reflexivity]. }
    cbn [app checkSs]. rewrite D.
    replace (usesSs "tmp" (body ++ [last])) with true.
    2:{ symmetry. apply usesSs_skip; auto. cbn. now rewrite !orb_true_r. }
    rewrite (checkSs_app body [last] G1 G2 G2 H2); auto.
    rewrite checkSs_one by reflexivity. unfold last.
    apply (assign_ok G2 _ _ (GSlice g) (Tg (GSlice g))); [now apply place_field| |apply (sameG_refl (GSlice g))].
    pose proof (type_field G2 f _ S2 FL) as X1.
    assert (X2 : TypeE G2 (EVar "tmp") = Some (Tg g)) by (apply type_var; [reflexivity|]; rewrite (SAME "tmp" N2); reflexivity).
    revert X1 X2. cbn [lexpr]. generalize (ESel (EVar rv) f), (EVar "tmp"). intros e1 e2 X1 X2. cbn [typeE]. rewrite X1, X2. cbn [assignable].
    rewrite sameG_refl. now replace (builtin pkg G2 "append") with true by (symmetry; used).
Qed.

Lemma make_ok : forall G f b g n t, sound G -> checkBase r ctxs b = true -> tipe camel r b = Ok g -> alookup f flds = Some (GSlice g) ->
  TypeE G n = Some t -> indexable t = true -> CheckS G (SAssign (LField (LVar rv) f) (EMake g n)) = Some G.
Proof.
  intros G f b g n t S C T FL TN I. apply (assign_ok G _ _ (GSlice g) (Tg (GSlice g))); [now apply place_field| |apply (sameG_refl (GSlice g))].
  cbn [typeE]. rewrite TN, I, (sound_typeOk G ctxs b g S C T). now replace (builtin pkg G "make") with true by (symmetry; used).
Qed.

(** Code for a field. *)
Lemma field_ok : forall G k f t g ss, sound G -> knows k -> checkType r ctxs k t = true -> fitsT r t = true ->
  (forall y, In y (localsT t) -> local y) -> tipe camel r t = Ok g -> alookup f flds = Some g ->
  parseType camel r rv (LField (LVar rv) f) t = Ok ss -> exists G1, CheckSs ([] :: G) ss = Some G1.
Proof.
  intros G k f t g ss S K C F L T FL P.
  assert (SP : sound ([] :: G)) by now apply sound_push.
  assert (BASE : checkBase r ctxs t = true -> exists G1, CheckSs ([] :: G) ss = Some G1).
  { intros CB. destruct (base_ok t (LField (LVar rv) f) g ss [] G CB (fitsT_base _ _ CB F) P T SP) as (G1 & H & _).
    - intros y I. split; auto.
    - intros H SH _. now apply place_field.
    - eauto. }
  destruct t as [| | | | |b i|b [[rf|i]|]]; cbn [checkType] in C; auto.
  - (* fixed array *)
    apply andb_true_iff in C as [CB CC]. cbn [fitsT] in F. cbn [tipe] in T. apply bind_ok in T as (n & Hn & T). apply bind_ok in T as (h & Hh & T).
    injection T as <-. cbn [parseType] in P. rewrite Hn in P. cbn [bind] in P. apply bind_ok in P as (body & Hb & P). injection P as <-.
    exists ([] :: G). rewrite checkSs_one by reflexivity. cbn [localsT] in L.
    apply (loop_ok _ (LField (LVar rv) f) b h (EInt n) (Tconst n) body SP CB (fitsT_base _ _ CB F) Hh L Hb); auto.
    + right. exists n. split; auto. eapply goodCount_bound; eauto.
    + intros H SH. right. exists n. now apply type_field.
  - (* counted array *)
    apply andb_true_iff in C as [CB CC]. destruct (refWidth r ctxs k rf) as [sz|] eqn:RW; [|discriminate]. cbn [fitsT] in F. cbn [tipe] in T.
    apply bind_ok in T as (h & Hh & T). injection T as <-. cbn [parseType] in P. rewrite Hh in P. cbn [bind] in P.
    apply bind_ok in P as (body & Hb & P). injection P as <-. exists ([] :: G). cbn [localsT] in L.
    assert (TN : forall H, sound H -> TypeE H (EToInt (refExpr camel rv rf)) = Some (Tg GInt)) by (intros; eapply type_refint; eauto).
    rewrite checkSs_plain by reflexivity. rewrite (make_ok _ f b h _ (Tg GInt) SP CB Hh FL (TN _ SP) eq_refl).
    rewrite checkSs_one by reflexivity.
    apply (loop_ok _ (LField (LVar rv) f) b h _ (Tg GInt) body SP CB (fitsT_base _ _ CB F) Hh L Hb); auto.
    + left; auto.
    + intros H SH. left. now apply type_field.
  - (* array up to the last bytes *)
    apply andb_true_iff in C as [CB CC]. cbn [fitsT] in F. cbn [tipe] in T.
    apply bind_ok in T as (h & Hh & T). injection T as <-. cbn [parseType] in P. rewrite Hh in P. cbn [bind] in P.
    apply bind_ok in P as (body & Hb & P). cbn [localsT] in L.
    eapply (constrained_ok G k (LLeftover i)); eauto; [apply L; cbn; auto|].
    intros H SH. constructor; [|constructor; [|constructor]]; (split; [reflexivity|]).
    + apply (make_ok _ f b h _ (Tconst 0) SH CB Hh FL); reflexivity.
    + apply (while_ok H f b h body SH CB (fitsT_base _ _ CB F) Hh FL); auto. intros y I. apply L. cbn [In] in *. tauto.
  - (* array to the end *)
    cbn [fitsT] in F. cbn [tipe] in T. apply bind_ok in T as (h & Hh & T). injection T as <-. cbn [parseType] in P. rewrite Hh in P. cbn [bind] in P.
    apply bind_ok in P as (body & Hb & P). injection P as <-. cbn [localsT] in L. exists ([] :: G).
    apply checkSs_steps. constructor; [|constructor; [|constructor]]; (split; [reflexivity|]).
    + apply (make_ok _ f b h _ (Tconst 0) SP C Hh FL); reflexivity.
    + apply (while_ok _ f b h body SP C (fitsT_base _ _ C F) Hh FL); auto.
Qed.

Definition declared (ms : list (string * type)) : Prop :=
  forall nm t, In (nm, t) ms -> exists g, tipe camel r t = Ok g /\ alookup (camel nm) flds = Some g.
Lemma knows_add : forall k m, knows k -> declared (fieldsM m) -> knows (addKnown k m).
Proof.
  intros k m K D. destruct m as [nm t| | | |]; auto. destruct t as [sz cst| | | | | |]; auto. cbn [addKnown].
  intros n z H. cbn [alookup] in H. destruct (String.eqb_spec n nm) as [E|]; auto. injection H as <-. rewrite E.
  destruct (D nm (TInt sz cst)) as (g & H1 & H2); [cbn; auto|]. cbn [tipe] in H1. congruence.
Qed.

Definition memberOk (m : member) : Prop := forall k st G,
  checkMember r ctxs k m = true -> fitsM r ctxs k m = true -> defaultsM m = true ->
  (forall y, In y (localsM m) -> local y) -> knows k -> declared (fieldsM m) ->
  parseMember camel r rv m = Ok st -> sound G -> plain st = true /\ CheckS G st = Some G.

Lemma members_ok : forall ms, Forall memberOk ms -> forall k ss G,
  checkMembers r ctxs k ms = true -> fitsMs r ctxs k ms = true -> forallb defaultsM ms = true ->
  (forall y, In y (flat_map localsM ms) -> local y) -> knows k -> declared (flat_map fieldsM ms) ->
  mapM (parseMember camel r rv) ms = Ok ss -> sound G -> Forall (fun s => plain s = true /\ CheckS G s = Some G) ss.
Proof.
  induction ms as [|m ms IH]; intros A k ss G C F D L K FD P S; cbn [mapM] in P.
  - injection P as <-. constructor.
  - apply bind_ok in P as (st & Hst & P). apply bind_ok in P as (ss' & Hss & P). injection P as <-.
    cbn [checkMembers] in C. apply andb_true_iff in C as [C1 C2]. cbn [fitsMs] in F. apply andb_true_iff in F as [F1 F2].
    cbn [forallb] in D. apply andb_true_iff in D as [D1 D2]. cbn [flat_map] in *.
    assert (FD1 : declared (fieldsM m)) by (intros nm t I; apply FD; apply in_or_app; auto).
    constructor.
    + apply (Forall_inv A k st G); auto. intros y I. apply L. apply in_or_app; auto.
    + apply (IH (Forall_inv_tail A) (addKnown k m)); auto.
      * intros y I. apply L. apply in_or_app; auto.
      * now apply knows_add.
      * intros nm t I. apply FD. apply in_or_app; auto.
Qed.

Definition pmembers := fix parseMembers (ms : list member) : outcome (list stmt) :=
  match ms with
  | [] => Ok []
  | m :: ms' => s <- parseMember camel r rv m ;; ss <- parseMembers ms' ;; Ok (s :: ss)
  end.
Lemma pmembers_eq : forall ms, pmembers ms = mapM (parseMember camel r rv) ms.
Proof. induction ms as [|m ms IH]; auto. cbn [pmembers mapM]. now rewrite IH. Qed.
Definition pcases (tag : idref) := fix parseCases (cs : list ucase) : outcome (list (option expr * list stmt)) :=
  match cs with
  | [] => Ok []
  | UCase None ms :: cs' => b <- pmembers ms ;; rest <- parseCases cs' ;; Ok ((None, b) :: rest)
  | UCase (Some l) ms :: cs' =>
      c <- conditional r (refExpr camel rv tag) l ;; b <- pmembers ms ;; rest <- parseCases cs' ;; Ok ((Some c, b) :: rest)
  end.
Definition ffix := fix fitsMs (k : known) (ms : list member) {struct ms} : bool :=
  match ms with
  | [] => true
  | m1 :: ms' => fitsM r ctxs k m1 && fitsMs (addKnown k m1) ms'
  end.
Lemma ffix_eq : forall ms k, ffix k ms = fitsMs r ctxs k ms.
Proof. induction ms as [|m ms IH]; intros k; auto. cbn. now rewrite IH. Qed.

Lemma cases_ok : forall k tag sz cs cases G, refWidth r ctxs k tag = Some sz -> knows k -> sound G ->
  Forall (fun c => Forall memberOk (ucase_members c)) cs ->
  (forall l ms, In (UCase l ms) cs ->
     match l with None => true | Some l' => definedList r l' && fitsList r sz l' end = true /\
     checkMembers r ctxs k ms = true /\ fitsMs r ctxs k ms = true /\ forallb defaultsM ms = true /\
     (forall y, In y (flat_map localsM ms) -> local y) /\ declared (flat_map fieldsM ms)) ->
  pcases tag cs = Ok cases ->
  forallb (fun c => match fst c with
                    | None => true
                    | Some e => match TypeE G e with Some Tbool => true | _ => false end
                    end && blockOk G (snd c)) cases = true /\
  List.length (filter (fun c => match fst c with None => true | Some _ => false end) cases) =
  List.length (filter (fun c => match ucase_list c with None => true | Some _ => false end) cs).
Proof.
  intros k tag sz cs cases G RW K S. revert cases. induction cs as [|[l ms] cs IH]; intros cases A Q P; cbn [pcases] in P.
  - injection P as <-. auto.
  - destruct (Q l ms (or_introl eq_refl)) as (Q1 & Q2 & Q3 & Q4 & Q5 & Q6).
    assert (B : forall b, pmembers ms = Ok b -> blockOk G b = true).
    { intros b Hb. rewrite pmembers_eq in Hb. apply (blockOk_some _ _ ([] :: G)). apply checkSs_steps.
      apply (members_ok ms (Forall_inv A) k b ([] :: G)); auto. now apply sound_push. }
    destruct l as [l|].
    + apply bind_ok in P as (c & Hc & P). apply bind_ok in P as (b & Hb & P). apply bind_ok in P as (rest & Hr & P). injection P as <-.
      destruct (IH rest (Forall_inv_tail A)) as [X1 X2]; auto; [intros l' ms' I; apply Q; cbn; auto|].
      apply andb_true_iff in Q1 as [Q1a Q1b].
      cbn [forallb filter fst snd ucase_list]. rewrite (cond_ok G _ (GUint sz) sz l c (type_ref G k tag sz S K RW) eq_refl Hc Q1b (definedList_ne _ Q1a)).
      rewrite (B b Hb), X1. auto.
    + apply bind_ok in P as (b & Hb & P). apply bind_ok in P as (rest & Hr & P). injection P as <-.
      destruct (IH rest (Forall_inv_tail A)) as [X1 X2]; auto; [intros l' ms' I; apply Q; cbn; auto|].
      cbn [forallb filter fst snd ucase_list]. rewrite (B b Hb), X1. cbn [List.length]. auto.
Qed.

Lemma member_ok : forall m, memberOk m.
Proof.
  induction m as [nm t|u tag len cs IH| | |] using member_ind'; intros k st G C F D L K FD P S.
  - cbn [parseMember] in P. apply bind_ok in P as (b & Hb & P). injection P as <-. split; [reflexivity|].
    destruct (FD nm t) as (g & Hg & Hl); [cbn; auto|].
    destruct (field_ok G k (camel nm) t g b S K C F L Hg Hl Hb) as (G1 & H). rewrite checkS_block. now rewrite (blockOk_some _ _ _ H).
  - destruct (check_union _ _ _ _ _ _ _ C) as ((sz & RW) & CL & CC). cbn [fitsM] in F. rewrite RW in F. rewrite forallb_forall in F.
    cbn [defaultsM] in D. apply andb_true_iff in D as [D1 D2]. rewrite forallb_forall in D2.
    cbn [parseMember] in P. apply bind_ok in P as (cases & Hcs & P). change (pcases tag cs = Ok cases) in Hcs.
    assert (Q : forall l ms, In (UCase l ms) cs ->
     match l with None => true | Some l' => definedList r l' && fitsList r sz l' end = true /\
     checkMembers r ctxs k ms = true /\ fitsMs r ctxs k ms = true /\ forallb defaultsM ms = true /\
     (forall y, In y (flat_map localsM ms) -> local y) /\ declared (flat_map fieldsM ms)).
    { intros l ms I. specialize (F _ I). cbn beta iota in F. apply andb_true_iff in F as [F1 F2]. fold ffix in F2. rewrite ffix_eq in F2.
      destruct (CC _ I) as [CA CB]. cbn [ucase_members ucase_list] in *. split; [|split; [|split; [|split; [|split]]]]; auto.
      - destruct l as [l|]; auto. rewrite F1, andb_true_r. exact CA.
      - specialize (D2 _ I). exact D2.
      - intros y Hy. apply L. cbn [localsM]. apply in_or_app. right. apply in_flat_map. exists (UCase l ms). auto.
      - intros nm t Hf. apply FD. cbn [fieldsM]. apply in_flat_map. exists (UCase l ms). auto. }
    assert (SW : forall H, sound H -> plain (SSwitch cases) = true /\ CheckS H (SSwitch cases) = Some H).
    { intros H SH. split; [reflexivity|]. destruct (cases_ok k tag sz cs cases H RW K SH IH Q Hcs) as [X1 X2].
      rewrite checkS_switch. rewrite X1, andb_true_r. unfold atMostOneDefault. rewrite X2. unfold oneDefaultb in D1. now rewrite D1. }
    destruct len as [c|].
    + apply bind_ok in P as (b & Hb & P). injection P as <-. split; [reflexivity|].
      destruct (constrained_ok G k c [SSwitch cases] b (sound_push _ S) K) as (G1 & H); auto.
      * unfold goodLen. destruct c as [f|i]; auto. destruct CL as (z & ->). reflexivity.
      * apply L. cbn. auto.
      * rewrite checkS_block. now rewrite (blockOk_some _ _ _ H).
    + injection P as <-. split; [reflexivity|]. rewrite checkS_block. rewrite (blockOk_some _ _ ([] :: G)); auto.
      apply checkSs_steps. constructor; [|constructor]. apply SW. now apply sound_push.
  - cbn [parseMember] in P. injection P as <-. split; [reflexivity|]. rewrite checkS_block. rewrite (blockOk_some _ _ ([] :: G)); auto.
    rewrite checkSs_one by reflexivity. apply assertEnd_ok. now apply sound_push.
  - cbn [parseMember] in P. injection P as <-. split; [reflexivity|]. rewrite checkS_block. rewrite (blockOk_some _ _ ([] :: G)); auto.
    now apply ret_ok.
  - cbn [parseMember] in P. injection P as <-. split; [reflexivity|]. rewrite checkS_block. rewrite (blockOk_some _ _ ([] :: G)); auto.
    rewrite checkSs_one by reflexivity. apply sound_push in S. apply (assign_ok _ _ _ goBytesT (Tg goBytesT)); [apply (place_cur _ S)| |reflexivity].
    cbn [typeE]. now replace (builtin pkg ([] :: G) "byte") with true by (symmetry; used).
Qed.
End Struct.
End Static.
