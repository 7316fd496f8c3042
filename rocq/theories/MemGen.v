(** Generated code keeps one owner for every object and only reads its input. *)
From Coq Require Import ZArith String List Bool Lia ZifyBool ZifyNat Permutation.
From Verif Require Import Base Ast IntervalsModel InspectModel InspectSpec InspectProofs GoLang GenModel GenCheck GenSim GenSimBody GenSimProg PackageSpec PackageProofs CompileProg ScopeProofs
  GoMem MemSim MemPath MemExec MemStep MemFill MemCall.
Import ListNotations.
Open Scope string_scope.
Open Scope list_scope.
Open Scope Z_scope.

Fixpoint lvars (l : lval) : list string :=
  match l with
  | LVar x => [x]
  | LField l _ => lvars l
  | LIdx l (EVar i) => i :: lvars l
  | LIdx l _ => lvars l
  end.

Lemma isShr_push : forall G x y k, x <> y -> isShr ((y, k) :: G) x = isShr G x.
Proof. intros. unfold isShr. cbn [alookup]. destruct (String.eqb_spec x y); congruence. Qed.
Lemma isOwner_push : forall G x y k, x <> y -> isOwner ((y, k) :: G) x = isOwner G x.
Proof. intros. unfold isOwner. cbn [alookup]. destruct (String.eqb_spec x y); congruence. Qed.
Lemma isSelf_push : forall G x y k, x <> y -> isSelf ((y, k) :: G) x = isSelf G x.
Proof. intros. unfold isSelf. cbn [alookup]. destruct (String.eqb_spec x y); congruence. Qed.
Lemma isShr_here : forall G x, isShr ((x, KShr) :: G) x = true.
Proof. intros. unfold isShr. cbn [alookup]. now rewrite String.eqb_refl. Qed.
Lemma selfVar_push : forall G l y k, ~ In y (lvars l) -> selfVar ((y, k) :: G) l = selfVar G l.
Proof. intros G l y k N. destruct l; cbn [selfVar]; auto. apply isSelf_push. cbn in N. intuition. Qed.
Lemma okL_push : forall G l y k, ~ In y (lvars l) -> okL ((y, k) :: G) l = okL G l.
Proof.
  intros G. induction l; intros y k N; cbn [okL lvars] in *.
  - apply isOwner_push. cbn in N. intuition.
  - auto.
  - destruct i; auto. cbn [In] in N. rewrite IHl, isShr_push, selfVar_push; intuition.
Qed.
Lemma freeze_shr : forall G x, isShr (freeze G) x = isShr G x.
Proof.
  intros G x. unfold isShr. induction G as [|[y k] G IH]; cbn [freeze map alookup fst snd]; auto. destruct (String.eqb x y); auto. now destruct k.
Qed.

Section Gen.
Variable camel : string -> string.
Variable r : resolver.
Variable ari : string -> nat -> Prop.
Notation okB := (okB ari).
Notation okS := (okS ari).
Notation okC := (okC ari).

Lemma okB_app : forall G a G1 b G2, okB G a G1 -> okB G1 b G2 -> okB G (a ++ b) G2.
Proof.
  intros G a G1 b G2 A. revert b G2.
  apply (okB_mut ari (fun _ _ _ => True) (fun G a G1 => forall b G2, okB G1 b G2 -> okB G (a ++ b) G2) (fun _ _ => True)) with (l := a) (c := G) (c0 := G1);
    auto; intros; cbn [app].
  - eapply okCons; eauto.
  - apply okNew; auto.
  - eapply okFill; eauto.
Qed.
Lemma okB_all : forall G ss, Forall (fun s => okS G s G) ss -> okB G ss G.
Proof. intros G ss F. induction F; [constructor|]. eapply okCons; eauto. Qed.

(** What is in scope: the data and the contexts are shared. *)
Record scope (ctxs : list string) (G : ctx) : Prop := mkScope {
  sc_cur : isShr G "cur" = true;
  sc_data : isShr G "data" = true;
  sc_ctx : forall x, In x ctxs -> isShr G x = true }.
Lemma scope_push : forall ctxs G y k, scope ctxs G -> y <> "cur" -> y <> "data" -> ~ In y ctxs -> scope ctxs ((y, k) :: G).
Proof.
  intros ctxs G y k [A B C] N1 N2 N3. constructor; [rewrite isShr_push by congruence; auto|rewrite isShr_push by congruence; auto|].
  intros x I. rewrite isShr_push; auto. intros ->. contradiction.
Qed.
Lemma scope_freeze : forall ctxs G, scope ctxs G -> scope ctxs (freeze G).
Proof. intros ctxs G [A B C]. constructor; intros; rewrite freeze_shr; auto. Qed.

Lemma pure_shr : forall G x, isShr G x = true -> pureE G (EVar x) = true.
Proof. intros G x H. cbn [pureE]. rewrite H. apply orb_true_r. Qed.
Lemma pure_clause : forall G v g c, pureE G v = true -> clauseOf r v g = Ok c -> pureE G c = true.
Proof.
  intros G v g c P H. unfold clauseOf in H. destruct (rhigh g).
  - apply bind_ok in H as (l & _ & H). apply bind_ok in H as (h & _ & H). injection H as <-. cbn [pureE]. now rewrite P.
  - apply bind_ok in H as (l & _ & H). injection H as <-. cbn [pureE]. now rewrite P.
Qed.
Lemma pure_or : forall G cs c, Forall (fun c => pureE G c = true) cs -> pureE G c = true -> pureE G (fold_left (fun a b => EBin BOr a b) cs c) = true.
Proof. intros G cs. induction cs; intros c F P; cbn [fold_left]; auto. inversion F; subst. apply IHcs; auto. cbn [pureE]. now rewrite P, H1. Qed.
Lemma pure_cond : forall G v l c, pureE G v = true -> l <> [] -> conditional r v l = Ok c -> pureE G c = true.
Proof.
  intros G v l c P NE H. unfold conditional in H. apply bind_ok in H as (cs & Hc & H). injection H as <-.
  assert (F : Forall (fun c => pureE G c = true) cs).
  { clear NE. revert cs Hc. induction l as [|g l IH]; intros cs Hc; cbn [mapM] in Hc; [injection Hc as <-; constructor|].
    apply bind_ok in Hc as (c1 & H1 & Hc). apply bind_ok in Hc as (cs1 & H2 & Hc). injection Hc as <-. constructor; eauto. eapply pure_clause; eauto. }
  destruct cs as [|c1 cs].
  - destruct l as [|g l]; [congruence|]. cbn [mapM] in Hc. apply bind_ok in Hc as (c1 & H1 & Hc). apply bind_ok in Hc as (cs1 & H2 & Hc). discriminate.
  - inversion F; subst. cbn [joinOr]. now apply pure_or.
Qed.
Lemma defined_ne : forall l, definedList r l = true -> l <> [].
Proof. intros l H ->. discriminate. Qed.

Lemma ok_ret : forall G m, okB G [retErr m] G.
Proof. intros. eapply okCons; [|constructor]. apply okReturn; reflexivity. Qed.
Lemma ok_check : forall ctxs G n, scope ctxs G -> pureE G n = true -> okS G (lengthCheck n) G.
Proof.
  intros ctxs G n S P. unfold lengthCheck, GenModel.cur. eapply okIf; [|apply ok_ret]. cbn [pureE]. rewrite (sc_cur _ _ S), P. now rewrite orb_true_r.
Qed.
Lemma ok_end : forall ctxs G, scope ctxs G -> okS G assertEnd G.
Proof. intros ctxs G S. unfold assertEnd, GenModel.cur. eapply okIf; [|apply ok_ret]. cbn [pureE]. rewrite (sc_cur _ _ S). now rewrite orb_true_r. Qed.
Lemma ok_adv : forall ctxs G n, scope ctxs G -> pureE G n = true -> okS G (SAssign (LVar "cur") (EFrom GenModel.cur n)) G.
Proof.
  intros ctxs G n S P. apply okSetV; [apply (sc_cur _ _ S)|]. cbn [shrE pureE GenModel.cur]. rewrite (sc_cur _ _ S), P. now rewrite orb_true_r.
Qed.

(** Element types. *)
Lemma int_ok : forall ctxs G lhs sz cst b, parseIntType r lhs sz cst = Ok b -> checkInt r sz cst = true ->
  scope ctxs G -> okL G lhs = true -> selfVar G lhs = false -> okB G b G.
Proof.
  intros ctxs G lhs sz cst b P C S OL NS. unfold parseIntType in P. apply bind_ok in P as (ck & Hc & P). injection P as <-.
  unfold checkInt in C. apply andb_true_iff in C as [_ C].
  assert (SC : isShr G "cur" = true) by apply (sc_cur _ _ S).
  apply okB_all. constructor; [eapply ok_check; eauto|]. constructor.
  { destruct (sz / 8 =? 1); (apply okSet; auto; left; unfold scalarE; cbn [pureE GenModel.cur]; rewrite SC; rewrite ?orb_true_r; reflexivity). }
  apply Forall_app. split; [|constructor; [eapply ok_adv; eauto|constructor]].
  destruct cst as [l|].
  - apply bind_ok in Hc as (c & Hc & P). injection P as <-. constructor; [|constructor]. eapply okIf; [|apply ok_ret]. cbn [pureE].
    eapply pure_cond; [apply okL_pure; eauto|apply defined_ne; eauto|eauto].
  - injection Hc as <-. constructor.
Qed.

Variable ctxs : list string.
(** Contexts that a struct needs are those its Parse method takes. *)
Hypothesis ARI : forall n s, Struct r n = Some s -> Extern s = false -> ari (camel n) (List.length (scontexts s)).

Lemma base_ok : forall rv t lhs b G, parseType camel r rv lhs t = Ok b -> checkBase r ctxs t = true -> scope ctxs G -> okL G lhs = true -> selfVar G lhs = false ->
  (forall y, In y (localsT t) -> ~ In y (lvars lhs) /\ ~ In y ctxs) ->
  exists d, okB G b (d ++ G) /\ (forall y, In y (map fst d) -> In y (localsT t)).
Proof.
  intros rv t lhs b G P C S OL NS LV. assert (SC : isShr G "cur" = true) by apply (sc_cur _ _ S).
  destruct t as [sz cst| | | |n|b0 i0|b0 l0]; cbn [checkBase] in C; try discriminate; cbn [parseType] in P.
  - exists []. split; [|intros y []]. cbn [app]. eapply int_ok; eauto.
  - exists []. split; [|intros y []]. cbn [app]. eapply int_ok; eauto.
  - injection P as <-. exists []. split; [|intros y []]. cbn [app]. apply okB_all. constructor; [|constructor]. apply okSet; auto. left. unfold scalarE.
    cbn [pureE GenModel.cur]. rewrite SC, (sc_data _ _ S), !orb_true_r. reflexivity.
  - injection P as <-. exists [("i", KShr)]. split; [|cbn; tauto]. cbn [app]. destruct (LV "i" (or_introl eq_refl)) as [L1 L2].
    eapply okCons; [apply okDecl; cbn [shrE pureE GenModel.cur]; rewrite SC; apply orb_true_r|].
    assert (S1 : scope ctxs (("i", KShr) :: G)) by (apply scope_push; auto; discriminate).
    assert (SI : isShr (("i", KShr) :: G) "i" = true) by apply isShr_here.
    assert (SC1 : isShr (("i", KShr) :: G) "cur" = true) by apply (sc_cur _ _ S1).
    apply okB_all. constructor; [|constructor; [|constructor]].
    + eapply okIf; [|apply ok_ret]. cbn [pureE]. rewrite SI. now rewrite orb_true_r.
    + apply okSet2; auto.
      * rewrite okL_push; auto.
      * rewrite selfVar_push; auto.
      * unfold scalarE. cbn [pureE GenModel.cur]. rewrite SI, SC1, !orb_true_r. reflexivity.
      * cbn [shrE pureE GenModel.cur]. rewrite SI, SC1, !orb_true_r. reflexivity.
      * cbn [shrE pureE GenModel.cur]. rewrite SI, SC1, !orb_true_r. reflexivity.
  - destruct (Struct r n) as [s|] eqn:HS; [|discriminate]. injection P as <-. apply andb_true_iff in C as [CE CC]. apply negb_true_iff in CE.
    exists [("err", KShr)]. split; [|cbn; tauto]. cbn [app]. destruct (LV "err" (or_introl eq_refl)) as [L1 L2].
    eapply okCons; [apply okVarE|].
    assert (S1 : scope ctxs (("err", KShr) :: G)) by (apply scope_push; auto; discriminate).
    assert (SI : isShr (("err", KShr) :: G) "err" = true) by apply isShr_here.
    assert (SC1 : isShr (("err", KShr) :: G) "cur" = true) by apply (sc_cur _ _ S1).
    apply okNew; try exact SI; try exact SC1.
    + rewrite okL_push; auto.
    + rewrite selfVar_push; auto.
    + apply forallb_forall. intros x I. apply (sc_ctx _ _ S1). rewrite forallb_forall in CC. apply memb_in. auto.
    + apply ARI; auto.
    + apply okB_all. constructor; [|constructor]. eapply okIf; [exact SI|]. eapply okCons; [|constructor]. apply okReturn; auto.
Qed.

Variable rv : string.
(** Inside of the Parse method also the receiver is there. *)
Definition scopeR (G : ctx) : Prop := scope ctxs G /\ isOwner G rv = true.
Lemma scopeR_push : forall G y k, scopeR G -> y <> "cur" -> y <> "data" -> y <> rv -> ~ In y ctxs -> scopeR ((y, k) :: G).
Proof. intros G y k [A B] N1 N2 N3 N4. split; [apply scope_push; auto|]. rewrite isOwner_push; auto. Qed.
Lemma ref_pure : forall G k f, scopeR G -> refWidth r ctxs k f <> None -> pureE G (refExpr camel rv f) = true.
Proof.
  intros G k f [S O] W. unfold refExpr, refWidth in *. destruct (String.eqb (rscope f) ""); cbn [pureE].
  - now rewrite O.
  - unfold ctxField in W. destruct (memb (rscope f) ctxs) eqn:M; [|congruence]. apply memb_in in M. rewrite (sc_ctx _ _ S _ M). apply orb_true_r.
Qed.

Lemma constrained_ok : forall G c body b, constrained camel r rv c body = Ok b -> scopeR G ->
  match c with LLeftover _ => True | LRef f => exists k, refWidth r ctxs k f <> None end ->
  "restore" <> rv -> ~ In "restore" ctxs ->
  okB (("restore", KShr) :: G) body (("restore", KShr) :: G) ->
  exists G', okB G b G'.
Proof.
  intros G c body b P S W N1 N2 OB. unfold constrained in P. apply bind_ok in P as ([ck n] & Hc & P). injection P as <-.
  assert (SC : isShr G "cur" = true) by apply (sc_cur _ _ (proj1 S)).
  assert (K : okS G ck G /\ pureE G n = true /\ pureE (("restore", KShr) :: G) n = true).
  { assert (S1 : scopeR (("restore", KShr) :: G)) by (apply scopeR_push; auto; discriminate).
    assert (SC1 : isShr (("restore", KShr) :: G) "cur" = true) by apply (sc_cur _ _ (proj1 S1)). destruct c.
    - injection Hc as <- <-. destruct W as [k W]. split; [|split].
      + eapply ok_check; [apply S|]. cbn [pureE]. eapply ref_pure; eauto.
      + cbn [pureE]. eapply ref_pure; eauto.
      + cbn [pureE]. eapply ref_pure; eauto.
    - apply bind_ok in Hc as (k & _ & Hc). injection Hc as <- <-. split; [|split].
      + eapply ok_check; [apply S|]. reflexivity.
      + cbn [pureE GenModel.cur]. rewrite SC. now rewrite orb_true_r.
      + cbn [pureE GenModel.cur]. rewrite SC1. now rewrite orb_true_r. }
  destruct K as (K1 & K2 & K3). exists (("restore", KShr) :: G). cbn [app].
  assert (S1 : scopeR (("restore", KShr) :: G)) by (apply scopeR_push; auto; discriminate).
  assert (SC1 : isShr (("restore", KShr) :: G) "cur" = true) by apply (sc_cur _ _ (proj1 S1)).
  eapply okCons; [exact K1|]. eapply okCons; [apply okDecl; cbn [shrE pureE GenModel.cur]; rewrite SC, K2; now rewrite orb_true_r|].
  eapply okCons; [apply okSetV; [exact SC1|cbn [shrE pureE GenModel.cur]; rewrite SC1, K3; now rewrite orb_true_r]|].
  eapply okB_app; [exact OB|]. apply okB_all. constructor; [eapply ok_end; apply S1|]. constructor; [|constructor].
  apply okSetV; [exact SC1|apply isShr_here].
Qed.

Lemma fill_ok : forall G g b0 body f, parseType camel r rv (LVar "tmp") b0 = Ok body -> checkBase r ctxs b0 = true -> scopeR G ->
  rv <> "tmp" -> ~ In "tmp" ctxs -> (forall y, In y (localsT b0) -> y <> rv /\ ~ In y ctxs) -> rv <> "cur" ->
  okB G [SAssign (LField (LVar rv) f) (EMake g (EInt 0));
         SWhile (EBin BGt (ELen GenModel.cur) (EInt 0))
           ([SVar "tmp" g] ++ body ++ [SAssign (LField (LVar rv) f) (EAppend (lexpr (LField (LVar rv) f)) (EVar "tmp"))])] G.
Proof.
  intros G g b0 body f P C [S O] N1 N2 LV N3. cbn [app lexpr].
  assert (ST : scope ctxs (("tmp", KMine) :: freeze G)) by (apply scope_push; [apply scope_freeze; auto|discriminate|discriminate|auto]).
  assert (NT : ~ In "tmp" (localsT b0)).
  { destruct b0; cbn [checkBase localsT] in *; try discriminate; cbn; intuition discriminate. }
  destruct (base_ok rv b0 (LVar "tmp") body (("tmp", KMine) :: freeze G) P C ST) as (d & OB & D).
  - unfold okL, isOwner. cbn [alookup]. reflexivity.
  - unfold selfVar, isSelf. cbn [alookup]. reflexivity.
  - intros y I. split; [|apply LV; auto]. cbn [lvars In]. intros [<-|[]]. contradiction.
  - eapply okFill; [exact O|auto| |exact OB| | |constructor].
    + cbn [pureE GenModel.cur]. rewrite (sc_cur _ _ S). now rewrite orb_true_r.
    + intros I. auto.
    + intros I. apply D in I. destruct (LV _ I). congruence.
Qed.

Lemma type_ok : forall k t f b G, parseType camel r rv (LField (LVar rv) f) t = Ok b -> checkType r ctxs k t = true -> scopeR G ->
  (forall y, In y (localsT t) -> y <> rv /\ ~ In y ctxs) -> rv <> "cur" ->
  exists G', okB G b G'.
Proof.
  intros k t f b G P C S LV N3. pose proof (proj2 S) as O.
  assert (BASE : checkBase r ctxs t = true -> exists G', okB G b G').
  { intros CB. destruct (base_ok rv t (LField (LVar rv) f) b G P CB (proj1 S)) as (d & OB & _); auto.
    - intros y I. destruct (LV y I). split; auto. cbn [lvars In]. intros [<-|[]]. congruence.
    - eexists; exact OB. }
  assert (ARR : forall b0 body bound, checkBase r ctxs b0 = true -> parseType camel r rv (LIdx (LField (LVar rv) f) (EVar "idx")) b0 = Ok body ->
     (forall y, In y ("idx" :: localsT b0) -> y <> rv /\ ~ In y ctxs) -> pureE (("idx", KShr) :: G) bound = true -> okS G (SForLt "idx" bound body) G).
  { intros b0 body bound CB PB LB PU. destruct (LB "idx" (or_introl eq_refl)) as [X1 X2].
    assert (SX : scopeR (("idx", KShr) :: G)) by (apply scopeR_push; auto; discriminate).
    destruct (base_ok rv b0 _ body _ PB CB (proj1 SX)) as (d & OB & _).
    - cbn [okL selfVar]. rewrite isShr_here. destruct SX as [_ ->]. reflexivity.
    - reflexivity.
    - intros y I. destruct (LB y (or_intror I)) as [Y1 Y2]. split; auto. cbn [lvars In]. intros [<-|[<-|[]]]; [|congruence].
      destruct b0; cbn [checkBase localsT] in *; try discriminate; cbn in I; intuition discriminate.
    - eapply okFor; [exact PU|exact OB]. }
  destruct t as [sz cst| | | |n|b0 i0|b0 [[rf|i0]|]]; cbn [checkType] in C; auto; cbn [parseType] in P; cbn [localsT] in LV.
  - apply andb_true_iff in C as [C _]. apply bind_ok in P as (n & _ & P). apply bind_ok in P as (body & HB & P). injection P as <-.
    exists G. apply okB_all. constructor; [|constructor]. eapply ARR; eauto.
  - apply andb_true_iff in C as [C W]. apply bind_ok in P as (g & _ & P). apply bind_ok in P as (body & HB & P). injection P as <-.
    assert (W' : refWidth r ctxs k rf <> None) by (destruct (refWidth r ctxs k rf); congruence).
    exists G. apply okB_all. constructor; [|constructor; [|constructor]].
    + apply okSet; auto. right. cbn [freshE pureE]. eapply ref_pure; eauto.
    + eapply ARR; eauto. cbn [pureE]. eapply ref_pure; eauto. apply scopeR_push; auto; try discriminate; apply (LV "idx"); left; reflexivity.
  - apply andb_true_iff in C as [C W]. apply bind_ok in P as (g & _ & P). apply bind_ok in P as (body & HB & P).
    destruct (LV "restore") as [R1 R2]; [left; reflexivity|]. destruct (LV "tmp") as [T1 T2]; [right; left; reflexivity|].
    eapply constrained_ok; eauto; [exact I|]. eapply fill_ok; eauto.
    + apply scopeR_push; auto; discriminate.
    + intros y I. apply LV. right. right. auto.
  - apply bind_ok in P as (g & _ & P). apply bind_ok in P as (body & HB & P). injection P as <-.
    destruct (LV "tmp") as [T1 T2]; [left; reflexivity|].
    exists G. eapply fill_ok; eauto. intros y I. apply LV. right. auto.
Qed.

Definition memberOk (m : member) : Prop := forall k s G, parseMember camel r rv m = Ok s -> checkMember r ctxs k m = true -> scopeR G ->
  (forall y, In y (localsM m) -> y <> rv /\ ~ In y ctxs) -> rv <> "cur" -> okS G s G.
Lemma members_ok : forall ms k b G, (forall m, In m ms -> memberOk m) ->
  mapM (parseMember camel r rv) ms = Ok b -> checkMembers r ctxs k ms = true -> scopeR G ->
  (forall m y, In m ms -> In y (localsM m) -> y <> rv /\ ~ In y ctxs) -> rv <> "cur" -> okB G b G.
Proof.
  induction ms as [|m ms IHm]; intros k b G IHH M CM S LM N; cbn [mapM checkMembers] in *.
  - injection M as <-. constructor.
  - apply bind_ok in M as (s1 & M1 & M). apply bind_ok in M as (b1 & M2 & M). injection M as <-. apply andb_true_iff in CM as [CM1 CM2].
    eapply okCons; [eapply (IHH m (or_introl eq_refl)); eauto|eapply IHm; eauto].
    + intros y I. eapply LM; eauto. left. reflexivity.
    + intros m' I. apply IHH. right. auto.
    + intros m' y I. apply LM. right. auto.
Qed.

Lemma member_ok : forall m, memberOk m.
Proof.
  induction m as [nm t|u tag len cs IH| | |] using member_ind'; intros k s G P C S LV N3.
  - cbn [parseMember] in P. apply bind_ok in P as (b & P & E). injection E as <-. destruct (type_ok k t _ b G P C S LV N3) as (G' & OB). eapply okBlock; eauto.
  - rewrite parseMember_union in P. apply bind_ok in P as (cases & HC & P). cbn [checkMember] in C. apply andb_true_iff in C as [C C3].
    apply andb_true_iff in C as [C1 C2].
    assert (W : refWidth r ctxs k tag <> None) by (destruct (refWidth r ctxs k tag); congruence).
    assert (SW : forall G1, scopeR G1 -> okC G1 cases).
    { clear P C2 S. intros G1 S1. rewrite Forall_forall in IH.
      assert (LC : forall l ms m y, In (UCase l ms) cs -> In m ms -> In y (localsM m) -> y <> rv /\ ~ In y ctxs).
      { intros l ms m y I J K. apply LV. cbn [localsM]. apply in_or_app. right. apply in_flat_map. exists (UCase l ms). split; auto. apply in_flat_map. eauto. }
      clear LV. revert cases HC. induction cs as [|[[l|] ms] cs IHc]; intros cases HC; cbn [parseCases] in HC.
      - injection HC as <-. constructor.
      - apply bind_ok in HC as (c & H1 & HC). apply bind_ok in HC as (b & H2 & HC). apply bind_ok in HC as (rest & H3 & HC). injection HC as <-.
        cbn [forallb] in C3. apply andb_true_iff in C3 as [C3 C4]. apply andb_true_iff in C3 as [D C3].
        eapply okCsome.
        + eapply pure_cond; [|apply defined_ne; eauto|eauto]. eapply ref_pure; eauto.
        + eapply members_ok; [|exact H2|rewrite <- kfix_eq; exact C3|exact S1|intros m y I; eapply LC; [left; reflexivity|exact I]|exact N3].
          specialize (IH (UCase (Some l) ms) (or_introl eq_refl)). cbn [ucase_members] in IH. rewrite Forall_forall in IH. exact IH.
        + apply IHc; auto; [intros x I; apply IH; right; auto|]. intros; eapply LC; eauto. right; eauto.
      - apply bind_ok in HC as (b & H2 & HC). apply bind_ok in HC as (rest & H3 & HC). injection HC as <-.
        cbn [forallb] in C3. apply andb_true_iff in C3 as [C3 C4]. cbn [andb] in C3.
        eapply okCnone.
        + eapply members_ok; [|exact H2|rewrite <- kfix_eq; exact C3|exact S1|intros m y I; eapply LC; [left; reflexivity|exact I]|exact N3].
          specialize (IH (UCase None ms) (or_introl eq_refl)). cbn [ucase_members] in IH. rewrite Forall_forall in IH. exact IH.
        + apply IHc; auto; [intros x I; apply IH; right; auto|]. intros; eapply LC; eauto. right; eauto. }
    destruct len as [c|].
    + apply bind_ok in P as (b & P & E). injection E as <-. cbn [localsM] in LV. destruct (LV "restore") as [R1 R2]; [left; reflexivity|].
      destruct (constrained_ok G c _ b P S) as (G' & OB); auto.
      * destruct c; auto. exists k. destruct (refWidth r ctxs k r0); congruence.
      * apply okB_all. constructor; [|constructor]. apply okSwitch. apply SW. apply scopeR_push; auto; discriminate.
      * eapply okBlock; eauto.
    + injection P as <-. eapply okBlock. apply okB_all. constructor; [|constructor]. apply okSwitch. auto.
  - cbn in P. injection P as <-. eapply okBlock. apply okB_all. constructor; [|constructor]. eapply ok_end. apply S.
  - cbn in P. injection P as <-. eapply okBlock. apply ok_ret.
  - cbn in P. injection P as <-. eapply okBlock. apply okB_all. constructor; [|constructor]. apply okSetV; [apply (sc_cur _ _ (proj1 S))|reflexivity].
Qed.
End Gen.

(** Every method of a package keeps to that discipline. *)
Theorem package_ok : forall camel os fs r p, package camel os fs r p -> methods_ok p.
Proof.
  intros camel os fs r p PK ty f L.
  assert (X : exists s, In s (definedStructs fs) /\ parseFunc camel r s = Ok f).
  { pose proof (pk_gen _ _ _ _ _ PK) as G. unfold genProgram in G. apply bind_ok in G as (cs & Hc & H). apply bind_ok in H as (ss & Hs & H). injection H as E.
    assert (E1 : pmethods p = map (fun x => let '(n, _, f, _) := x in (n, f)) ss) by (rewrite <- E; reflexivity).
    rewrite E1 in L. apply alookup_some_in in L. apply in_map_iff in L as (x & EX & Ix). destruct (mapM_in_r _ _ _ _ Hs Ix) as (s & Is & Hx). unfold structureDecl in Hx.
    apply bind_ok in Hx as (ds & Hds & Hx). apply bind_ok in Hx as (f' & Hf & Hx). apply bind_ok in Hx as (ct & Hct & Hx). injection Hx as <-.
    injection EX as _ <-. eauto. }
  destruct X as (s & D & Hf). pose proof (pk_check _ _ _ _ _ PK s D) as CK. unfold checkStruct in CK. apply andb_true_iff in CK as [CM CK]. unfold checkScope in CK.
  unfold parseFunc in Hf. apply bind_ok in Hf as (rv & Hrv & Hf). apply bind_ok in Hf as (ms & Hms & Hf). injection Hf as <-.
  rewrite Hrv in CK. repeat rewrite andb_true_iff in CK. rewrite !negb_true_iff, !memb_notin, disjointb_spec, nodupb_NoDup in CK.
  destruct CK as (((B6 & B7) & B8) & B9). cbn [frecv fparams fbody].
  set (G0 := ("cur", KShr) :: (rv, KSelf) :: ("data", KShr) :: paramsC (scontexts s)).
  assert (N1 : rv <> "cur") by (intros ->; apply B6; cbn; auto). assert (N2 : rv <> "data") by (intros ->; apply B6; cbn; auto).
  assert (PC : forall xs x, In x xs -> isShr (paramsC xs) x = true).
  { induction xs as [|y xs IH]; intros x I; [destruct I|]. unfold paramsC, isShr. cbn [map alookup]. destruct (String.eqb_spec x y); auto.
    destruct I as [->|I]; [congruence|]. apply IH. auto. }
  assert (S : scopeR (scontexts s) rv G0).
  { unfold G0. split.
    - constructor.
      + apply isShr_here.
      + rewrite !isShr_push by congruence. apply isShr_here.
      + intros x I. rewrite !isShr_push; [apply PC; auto| | |]; intros ->; [apply (B7 _ I); cbn; auto|contradiction|apply (B7 _ I); cbn; auto].
    - rewrite isOwner_push by congruence. unfold isOwner. cbn [alookup]. now rewrite String.eqb_refl. }
  exists G0. cbn [app]. eapply okCons; [apply okDecl; cbn [shrE]; rewrite isShr_push by congruence; apply isShr_here|]. fold G0.
  eapply okB_app.
  - repeat rewrite andb_true_iff in CM. destruct CM as [[[[_ _] CM] _] _].
    eapply members_ok with (ctxs := scontexts s) (rv := rv); [|exact Hms|exact CM|exact S| |exact N1].
    + intros m _. apply member_ok. intros n t HS E g Lg. destruct (pk_meth _ _ _ _ _ PK n t HS E) as ((g' & Lg' & EQ) & _). rewrite Lg in Lg'.
      injection Lg' as <-. now rewrite EQ.
    + intros m y I J. assert (K : In y ("cur" :: "data" :: "err" :: flat_map localsM (members_of s))) by (do 3 right; apply in_flat_map; eauto).
      split; [intros ->; contradiction|intros K'; eapply B7; eauto].
  - apply okB_all. constructor; [|constructor]. apply okReturn; [apply (sc_cur _ _ (proj1 S))|reflexivity].
Qed.
