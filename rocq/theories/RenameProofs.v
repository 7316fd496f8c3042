(** The decoder on renamed declarations. *)
From Coq Require Import ZArith String List Bool Lia ZifyBool ZifyNat.
From Verif Require Import Base Ast IntervalsModel InspectModel InspectSpec GoLang GenModel GenDecode GenCheck GenSim GenSimBody GenSafe WireSpec WireProofs WireComplete WireFacts GenTerm RenameSpec.
Import ListNotations.
Open Scope string_scope.
Open Scope list_scope.
Open Scope Z_scope.

(* ---------- outcomes ---------- *)

Definition alike {A} (R : A -> A -> Prop) (o o' : outcome (A * bytes)) : Prop :=
  match o, o' with
  | Ok (a, c), Ok (a', c') => R a a' /\ c = c'
  | Err e, Err e' => e = e'
  | Panic m, Panic m' => m = m'
  | OutOfFuel, OutOfFuel => True
  | _, _ => False
  end.
Lemma alike_bind : forall {A B} (R : A -> A -> Prop) (Q : B -> B -> Prop) o o' k k', alike R o o' ->
  (forall a a' c, R a a' -> alike Q (k (a, c)) (k' (a', c))) -> alike Q (bind o k) (bind o' k').
Proof.
  intros A B R Q o o' k k' H K. destruct o as [[a c]| | |], o' as [[a' c']| | |]; cbn in *; try contradiction; auto.
  destruct H as [H ->]. auto.
Qed.
Lemma alike_same : forall {A} (R : A -> A -> Prop) (o : outcome (A * bytes)), (forall a, R a a) -> alike R o o.
Proof. intros A R [[a c]| | |] H; cbn; auto. Qed.
Lemma alike_within : forall {A} (R : A -> A -> Prop) k c f g, (forall c, alike R (f c) (g c)) -> alike R (decWithin k c f) (decWithin k c g).
Proof.
  intros A R k c f g H. unfold decWithin. destruct (blen c <? k); [cbn; auto|]. destruct (k <? 0); [cbn; auto|].
  eapply alike_bind; [apply H|]. intros a a' c1 Ra. destruct (0 <? blen c1); cbn; auto.
Qed.
Lemma alike_leaving : forall {A} (R : A -> A -> Prop) k c f g, (forall c, alike R (f c) (g c)) -> alike R (decLeaving k c f) (decLeaving k c g).
Proof.
  intros A R k c f g H. unfold decLeaving. destruct (k <? 0); [cbn; auto|]. destruct (blen c <? k); [cbn; auto|]. now apply alike_within.
Qed.
Definition bareV (v v' : value) : Prop := bare v = bare v'.
Definition bareL (l l' : list value) : Prop := map bare l = map bare l'.

(* ---------- rows: the fields of two structs side by side ---------- *)

Section Rows.
Variable key key' : string -> string.
Inductive rows : list string -> amap value -> amap value -> Prop :=
| rows_nil : rows [] [] []
| rows_cons : forall n F v v' fs fs', bare v = bare v' -> rows F fs fs' -> rows (n :: F) ((key n, v) :: fs) ((key' n, v') :: fs').
Lemma rows_lookup : forall F fs fs', rows F fs fs' -> NoDup (map key F) -> NoDup (map key' F) -> forall n, In n F ->
  exists v v', alookup (key n) fs = Some v /\ alookup (key' n) fs' = Some v' /\ bare v = bare v'.
Proof.
  induction 1 as [|m F v v' fs fs' B H IH]; intros N N' n I; [destruct I|]. cbn [map] in N, N'. inversion N as [|? ? X N1]; subst. inversion N' as [|? ? X' N1']; subst.
  cbn [alookup]. destruct I as [->|I].
  - rewrite !String.eqb_refl. eauto.
  - destruct (String.eqb (key n) (key m)) eqn:E; [apply String.eqb_eq in E; destruct X; rewrite <- E; now apply in_map|].
    destruct (String.eqb (key' n) (key' m)) eqn:E'; [apply String.eqb_eq in E'; destruct X'; rewrite <- E'; now apply in_map|]. auto.
Qed.
Lemma rows_assign : forall F fs fs', rows F fs fs' -> NoDup (map key F) -> NoDup (map key' F) -> forall n w w', In n F -> bare w = bare w' ->
  rows F (assign (key n) w fs) (assign (key' n) w' fs').
Proof.
  induction 1 as [|m F v v' fs fs' B H IH]; intros N N' n w w' I W; [destruct I|]. cbn [map] in N, N'. inversion N as [|? ? X N1]; subst. inversion N' as [|? ? X' N1']; subst.
  cbn [assign]. destruct I as [->|I].
  - rewrite !String.eqb_refl. now constructor.
  - destruct (String.eqb (key n) (key m)) eqn:E; [apply String.eqb_eq in E; destruct X; rewrite <- E; now apply in_map|].
    destruct (String.eqb (key' n) (key' m)) eqn:E'; [apply String.eqb_eq in E'; destruct X'; rewrite <- E'; now apply in_map|]. constructor; auto.
Qed.
Lemma rows_bares : forall F fs fs', rows F fs fs' -> bares fs = bares fs'.
Proof. unfold bares. induction 1 as [|n F v v' fs fs' B H IH]; cbn; auto. congruence. Qed.
Lemma bares_rows : forall F fs fs', map fst fs = map key F -> map fst fs' = map key' F -> bares fs = bares fs' -> rows F fs fs'.
Proof.
  induction F as [|n F IH]; intros [|[k v] fs] [|[k' v'] fs'] E E' B; cbn in *; try discriminate; [constructor|].
  injection E as -> E. injection E' as -> E'. injection B as Bv B. constructor; auto.
Qed.
End Rows.
Lemma bare_int : forall v v', bare v = bare v' -> asInt (Some v) = asInt (Some v').
Proof. intros v v' H. destruct v, v'; cbn in *; try discriminate; auto. now injection H as ->. Qed.
Lemma bare_struct : forall ty ty' fs fs', bares fs = bares fs' -> bare (VStruct ty fs) = bare (VStruct ty' fs').
Proof.
  intros ty ty' fs fs' H. cbn [bare]. f_equal. unfold bares in H. revert fs' H. induction fs as [|[k v] fs IH]; intros [|[k' v'] fs'] H; cbn in *; try discriminate; auto.
  injection H as -> H. f_equal. auto.
Qed.
Lemma struct_bare : forall ty fs v', bare (VStruct ty fs) = bare v' -> exists ty' fs', v' = VStruct ty' fs' /\ bares fs = bares fs'.
Proof.
  intros ty fs v' H. destruct v' as [| | | |ty' fs'| | |]; try discriminate. exists ty', fs'. split; auto. cbn [bare] in H. injection H as H. unfold bares.
  revert fs' H. induction fs as [|[k v] fs IH]; intros [|[k' v'] fs'] H; cbn in *; try discriminate; auto. injection H as -> H. f_equal. auto.
Qed.

(* ---------- the decoder ---------- *)

Section Ren.
Variable camel camel' : string -> string.
Variable nu : naming.
Variable r r' : resolver.
Notation cv := (Constant r).
Notation cv' := (Constant r').
Hypothesis Hk : forall n v, cv n = Some v -> cv' (toConstant nu n) = Some v.
Hypothesis Hscope : forall x, x <> "" -> toContext nu x <> "".

Lemma ren_int : forall i v, int_value cv i = Some v -> int_value cv' (renInt nu i) = Some v.
Proof. intros [n|z] v H; cbn in *; auto. Qed.
Lemma ren_integer : forall i, goodCount r i = true -> exists v, integerOf r i = Ok v /\ integerOf r' (renInt nu i) = Ok v.
Proof.
  intros i H. unfold goodCount in H. destruct (int_value cv i) as [v|] eqn:E; [|discriminate]. pose proof (ren_int _ _ E) as E'. exists v.
  split; [now apply integerOf_value|now apply integerOf_value].
Qed.
Lemma ren_range : forall g b, range_bounds cv g = Some b -> range_bounds cv' (renRange nu g) = Some b.
Proof.
  intros [lo hi] b. unfold range_bounds, renRange. cbn [rlow rhigh]. destruct (int_value cv lo) as [l|] eqn:E; [|discriminate]. rewrite (ren_int _ _ E).
  destruct hi as [h|]; cbn [option_map]; auto. destruct (int_value cv h) as [h'|] eqn:E'; [|discriminate]. now rewrite (ren_int _ _ E').
Qed.
Lemma ren_inList : forall l x, definedList r l = true -> inList r x l = inList r' x (renList nu l).
Proof.
  intros l x D. unfold definedList in D. apply andb_true_iff in D as [D _]. rewrite forallb_forall in D. unfold inList, renList.
  induction l as [|g l IH]; cbn [map existsb]; auto. rewrite IH by (intros y Iy; apply D; now right). f_equal. specialize (D g (or_introl eq_refl)).
  unfold inRange. destruct (range_bounds cv g) as [b|] eqn:E; [|discriminate]. now rewrite (ren_range _ _ E).
Qed.
Lemma ren_decInt : forall sz o c, checkInt r sz o = true -> decInt r sz o c = decInt r' sz (option_map (renList nu) o) c.
Proof.
  intros sz o c C. unfold checkInt in C. apply andb_true_iff in C as [_ C]. unfold decInt. destruct o as [l|]; cbn [option_map]; auto. now rewrite (ren_inList l _ C).
Qed.

(** Contexts. *)
Definition ctxAlike (c : context) (v v' : value) : Prop :=
  exists ty ty' cf cf', v = VStruct ty cf /\ v' = VStruct ty' cf' /\
    forall n, In n (map fst (cmembers c)) -> exists w w', alookup (camel n) cf = Some w /\ alookup (camel' (toCtxField nu (cname c) n)) cf' = Some w' /\ bare w = bare w'.
Definition cenvR (ctxs : list string) (cenv cenv' : amap value) : Prop :=
  forall x, In x ctxs -> exists c v v', Context r x = Some c /\ cname c = x /\ alookup x cenv = Some v /\ alookup (toContext nu x) cenv' = Some v' /\ ctxAlike c v v'.

Section Body.
Variable dcall dcall' : string -> amap value -> bytes -> outcome (value * bytes).
Hypothesis Hcall : forall nm s cenv cenv' c, Struct r nm = Some s -> Extern s = false -> cenvR (scontexts s) cenv cenv' ->
  alike bareV (dcall nm cenv c) (dcall' (toStruct nu nm) cenv' c).
Variable n : nat.
Variable ctxs : list string.
Variable cenv cenv' : amap value.
Hypothesis CR : cenvR ctxs cenv cenv'.
Variable dat : bytes.
Notation d := (blen dat).
Variable phi : string -> string.
Variable N : list string.
Notation key' := (fun n => camel' (phi n)).
Hypothesis ND : NoDup (map camel N).
Hypothesis ND' : NoDup (map key' N).
Notation Rows := (rows camel key' N).

Lemma ren_base : forall t c, checkBase r ctxs t = true -> alike bareV (decBase r dcall cenv d t c) (decBase r' dcall' cenv' d (renType nu phi t) c).
Proof.
  intros t c C. destruct t as [sz o| | | |nm|b i|b l]; cbn [renType decBase].
  - rewrite <- (ren_decInt sz o c C). apply alike_same. reflexivity.
  - apply alike_same. reflexivity.
  - cbn. split; reflexivity.
  - apply alike_same. reflexivity.
  - cbn [checkBase] in C. destruct (Struct r nm) as [s|] eqn:E; [|discriminate]. apply andb_true_iff in C as [X C]. apply (Hcall nm s); auto; [now destruct (Extern s)|].
    intros x I. apply CR. rewrite forallb_forall in C. apply C in I. unfold memb in I. apply existsb_exists in I as (y & J & Ey). apply String.eqb_eq in Ey. now subst.
  - reflexivity.
  - reflexivity.
Qed.
Lemma ren_for : forall t, checkBase r ctxs t = true -> forall m k c, alike bareL (decFor r dcall cenv d m t k c) (decFor r' dcall' cenv' d m (renType nu phi t) k c).
Proof.
  intros t C. induction m as [|m IH]; intros k c; cbn [decFor]; destruct (k <=? 0); try (cbn; auto; split; reflexivity).
  eapply alike_bind; [now apply ren_base|]. intros v v' c1 B. eapply alike_bind; [apply IH|]. intros vs vs' c2 Bs. cbn. split; auto. unfold bareL in *. cbn. now rewrite B, Bs.
Qed.
Lemma ren_while : forall t, checkBase r ctxs t = true -> forall m c, alike bareL (decWhile r dcall cenv d m t c) (decWhile r' dcall' cenv' d m (renType nu phi t) c).
Proof.
  intros t C. induction m as [|m IH]; intros c; cbn [decWhile]; destruct (blen c <=? 0); try (cbn; auto; split; reflexivity).
  eapply alike_bind; [now apply ren_base|]. intros v v' c1 B. eapply alike_bind; [apply IH|]. intros vs vs' c2 Bs. cbn. split; auto. unfold bareL in *. cbn. now rewrite B, Bs.
Qed.
Lemma bareL_list : forall vs vs', bareL vs vs' -> bareV (VList vs) (VList vs').
Proof. intros vs vs' H. unfold bareV. cbn. now rewrite H. Qed.

Lemma ren_refVal : forall k fs fs' f sz, refWidth r ctxs k f = Some sz -> incl (map fst k) N -> Rows fs fs' ->
  refVal camel fs cenv f = refVal camel' fs' cenv' (renRef nu phi f).
Proof.
  intros k fs fs' [sc nm] sz W I R. unfold refWidth in W. unfold refVal, renRef. cbn [rscope rname] in *. destruct (String.eqb sc "") eqn:E.
  - cbn [rscope rname]. rewrite String.eqb_refl. assert (J : In nm N). { apply I. clear - W. induction k as [|[x z] k IH]; cbn in *; [discriminate|]. destruct (String.eqb nm x) eqn:E; auto. apply String.eqb_eq in E. auto. }
    destruct (rows_lookup camel key' N fs fs' R ND ND' nm J) as (v & v' & L & L' & B). rewrite L, L'. now apply bare_int.
  - cbn [rscope rname]. apply String.eqb_neq in E. pose proof (Hscope sc E) as E'. apply String.eqb_neq in E'. rewrite E'.
    unfold ctxField in W. destruct (memb sc ctxs) eqn:M; [|discriminate]. unfold memb in M. apply existsb_exists in M as (y & J & Ey). apply String.eqb_eq in Ey. subst y.
    destruct (CR sc J) as (c & v & v' & X & CN & L & L' & ty & ty' & cf & cf' & -> & -> & A). rewrite X in W. rewrite L, L'. cbn [asFields bind].
    destruct (findIntField nm (cmembers c)) as [[s0 o0]| | |] eqn:FI; try discriminate.
    assert (J' : In nm (map fst (cmembers c))) by (apply findIntField_in in FI; apply in_map_iff; eexists; split; [|exact FI]; reflexivity).
    destruct (A nm J') as (w & w' & Lw & Lw' & B). rewrite CN in Lw'. rewrite Lw, Lw'. now apply bare_int.
Qed.
Lemma ren_gsize : forall t g, checkBase r ctxs t = true -> tipe camel r t = Ok g -> exists g', tipe camel' r' (renType nu phi t) = Ok g' /\ gsize g' = gsize g.
Proof. intros t g C H. destruct t; cbn in *; try discriminate; injection H as <-; eexists; split; reflexivity. Qed.
Lemma base_tipe : forall t, checkBase r ctxs t = true -> exists g, tipe camel r t = Ok g.
Proof. intros t C. destruct t; cbn in *; try discriminate; eauto. Qed.

Lemma ren_type : forall k fs fs' t c, checkType r ctxs k t = true -> incl (map fst k) N -> Rows fs fs' ->
  alike bareV (decType camel r dcall n cenv d fs t c) (decType camel' r' dcall' n cenv' d fs' (renType nu phi t) c).
Proof.
  intros k fs fs' t c C I R. destruct t as [sz o| | | |nm|b i|b [[f|i]|]]; cbn [checkType] in C; try (apply (ren_base _ c C)); cbn [renType option_map renLength decType].
  - apply andb_true_iff in C as [C G]. destruct (ren_integer i G) as (v & E & E'). rewrite E, E'. cbn [bind].
    eapply alike_bind; [now apply ren_for|]. intros vs vs' c1 B. cbn. split; auto. now apply bareL_list.
  - apply andb_true_iff in C as [C G]. destruct (refWidth r ctxs k f) as [w|] eqn:W; [|discriminate]. rewrite (ren_refVal k fs fs' f w W I R).
    destruct (refVal camel' fs' cenv' (renRef nu phi f)) as [x| | |]; cbn [bind]; cbn; auto.
    destruct (base_tipe b C) as [g Eg]. destruct (ren_gsize b g C Eg) as (g' & Eg' & S). rewrite Eg, Eg'. cbn [bind]. rewrite S.
    match goal with |- alike _ (if ?b then _ else _) _ => destruct b end; [cbn; auto|].
    eapply alike_bind; [now apply ren_for|]. intros vs vs' c1 B. cbn. split; auto. now apply bareL_list.
  - apply andb_true_iff in C as [C G]. destruct (ren_integer i G) as (v & E & E'). rewrite E, E'. cbn [bind]. apply alike_leaving. intros c0.
    eapply alike_bind; [now apply ren_while|]. intros vs vs' c1 B. cbn. split; auto. now apply bareL_list.
  - eapply alike_bind; [now apply ren_while|]. intros vs vs' c1 B. cbn. split; auto. now apply bareL_list.
Qed.

Lemma ren_pick : forall x cs, (forall c, In c cs -> match ucase_list c with None => True | Some l => definedList r l = true end) ->
  pickCase r' x (map (renCase nu phi) cs) = option_map (map (renMember nu phi)) (pickCase r x cs).
Proof.
  intros x cs. induction cs as [|[[l|] ms] cs IH]; intros D; auto; cbn [map renCase ucase_list ucase_members option_map pickCase].
  - rewrite <- (ren_inList l x (D _ (or_introl eq_refl))). destruct (inList r x l); auto. apply IH. intros c I. apply D. now right.
  - apply IH. intros c I. apply D. now right.
Qed.
Lemma ren_default : forall cs, defaultCase (map (renCase nu phi) cs) = option_map (map (renMember nu phi)) (defaultCase cs).
Proof. induction cs as [|[[l|] ms] cs IH]; auto. Qed.
Lemma ren_choice : forall x cs, (forall c, In c cs -> match ucase_list c with None => True | Some l => definedList r l = true end) ->
  choice r' x (map (renCase nu phi) cs) (map (renCase nu phi) cs) = option_map (map (renMember nu phi)) (choice r x cs cs).
Proof. intros x cs D. unfold choice. rewrite ren_pick, ren_default by auto. now destruct (pickCase r x cs). Qed.
Lemma ren_union : forall u tag len cs, renMember nu phi (MUnion u tag len cs) =
  MUnion (toUnion nu u) (renRef nu phi tag) (option_map (renLength nu phi) len) (map (renCase nu phi) cs).
Proof. intros. cbn [renMember]. f_equal. apply map_ext. now intros [l ms]. Qed.

Notation simR := (alike Rows).
Lemma ren_members0 : forall ms, Forall (fun m => forall k fs fs' c, checkMember r ctxs k m = true -> incl (map fst k) N -> incl (fieldNames m) N -> Rows fs fs' ->
    simR (decMember camel r dcall n cenv d m fs c) (decMember camel' r' dcall' n cenv' d (renMember nu phi m) fs' c)) ms ->
  forall k fs fs' c, checkMembers r ctxs k ms = true -> incl (map fst k) N -> incl (flat_map fieldNames ms) N -> Rows fs fs' ->
    simR (decMembers camel r dcall n cenv d ms fs c) (decMembers camel' r' dcall' n cenv' d (map (renMember nu phi) ms) fs' c).
Proof.
  induction ms as [|m ms IH]; intros F k fs fs' c C I J R; cbn [map decMembers checkMembers flat_map] in *; [cbn; auto|].
  apply andb_true_iff in C as [C1 C2]. eapply alike_bind; [apply (Forall_inv F k fs fs' c C1 I); auto; intros x Ix; apply J, in_or_app; auto|].
  intros fs1 fs1' c1 R1. apply (IH (Forall_inv_tail F) (addKnown k m)); auto.
  - intros x Ix. unfold addKnown in Ix. destruct m as [nm t| | | |]; auto. destruct t; auto. cbn in Ix. destruct Ix as [<-|Ix]; auto. apply J. cbn. auto.
  - intros x Ix. apply J, in_or_app. auto.
Qed.
Lemma ren_member : forall m k fs fs' c, checkMember r ctxs k m = true -> incl (map fst k) N -> incl (fieldNames m) N -> Rows fs fs' ->
    simR (decMember camel r dcall n cenv d m fs c) (decMember camel' r' dcall' n cenv' d (renMember nu phi m) fs' c).
Proof.
  induction m as [nm t|u tag len cs IH| | |] using member_ind'; intros k fs fs' c C I J R.
  - cbn [decMember renMember]. eapply alike_bind; [eapply ren_type; eauto|]. intros v v' c1 B. cbn. split; auto. apply (rows_assign camel key' N fs fs' R ND ND' nm); auto. apply J. cbn. auto.
  - rewrite ren_union, !decMember_union. cbn zeta. rewrite Forall_forall in IH. destruct (check_union _ _ _ _ _ _ _ C) as (_ & _ & CC).
    assert (WT : exists w, refWidth r ctxs k tag = Some w). { cbn [checkMember] in C. rewrite !andb_true_iff in C. destruct C as ((C & _) & _). destruct (refWidth r ctxs k tag); [eauto|discriminate]. }
    destruct WT as [w WT].
    assert (B : forall c, simR (x <- refVal camel fs cenv tag ;; decPick camel r dcall n cenv dat cs x cs fs c)
                          (x <- refVal camel' fs' cenv' (renRef nu phi tag) ;; decPick camel' r' dcall' n cenv' dat (map (renCase nu phi) cs) x (map (renCase nu phi) cs) fs' c)).
    { intros c0. rewrite <- (ren_refVal k fs fs' tag w WT I R). destruct (refVal camel fs cenv tag) as [x| | |]; cbn [bind]; try (cbn; auto; fail). rewrite !decPick_choice.
      rewrite ren_choice by (intros [l ms] Ic; destruct (CC _ Ic) as [CL _]; cbn [ucase_list] in *; destruct l; auto).
      destruct (choice r x cs cs) as [ms|] eqn:E; cbn [option_map]; [|cbn; auto].
      destruct (choice_in _ _ _ _ E) as [l Ic]. destruct (CC _ Ic) as [_ CM]. cbn [ucase_members] in CM. eapply ren_members0; eauto; [exact (IH _ Ic)|].
      intros y Iy. apply J. cbn [fieldNames]. apply in_flat_map. eauto. }
    cbn [checkMember] in C. rewrite !andb_true_iff in C. destruct C as ((_ & CL) & _).
    destruct len as [[f|i]|]; cbn [option_map renLength decConstr] in *.
    + destruct (refWidth r ctxs k f) as [wf|] eqn:WF; [|discriminate]. rewrite <- (ren_refVal k fs fs' f wf WF I R). destruct (refVal camel fs cenv f); cbn [bind]; try (cbn; auto; fail). now apply alike_within.
    + destruct (ren_integer i CL) as (v & E & E'). rewrite E, E'. cbn [bind]. now apply alike_leaving.
    + apply B.
  - cbn. destruct (0 <? blen c); cbn; auto.
  - reflexivity.
  - cbn. auto.
Qed.
Lemma ren_members : forall ms k fs fs' c, checkMembers r ctxs k ms = true -> incl (map fst k) N -> incl (flat_map fieldNames ms) N -> Rows fs fs' ->
    simR (decMembers camel r dcall n cenv d ms fs c) (decMembers camel' r' dcall' n cenv' d (map (renMember nu phi) ms) fs' c).
Proof. intros. eapply ren_members0; eauto. apply Forall_forall. intros. eapply ren_member; eauto. Qed.
End Body.

(** Nested structs and contexts. *)
Hypothesis Hs : forall nm s, Struct r nm = Some s -> Extern s = false -> checkStruct camel r s = true /\ sname s = nm /\
  Struct r' (toStruct nu nm) = Some (renStruct nu s) /\ checkStruct camel' r' (renStruct nu s) = true.
Lemma names_map : forall phi ms, flat_map fieldNames (map (renMember nu phi) ms) = map phi (flat_map fieldNames ms).
Proof.
  intros phi. assert (H : forall m, fieldNames (renMember nu phi m) = map phi (fieldNames m)).
  { induction m as [nm t|u tag len cs IH| | |] using member_ind'; auto. cbn [renMember fieldNames].
    induction cs as [|[l ms] cs IHc]; cbn [map flat_map]; auto. rewrite map_app, IHc by exact (Forall_inv_tail IH). f_equal.
    pose proof (Forall_inv IH) as I1. cbn in I1. clear - I1. induction ms as [|m ms IHm]; cbn [map flat_map]; auto.
    rewrite map_app, (Forall_inv I1), IHm; auto. exact (Forall_inv_tail I1). }
  induction ms as [|m ms IH]; cbn [map flat_map]; auto. now rewrite map_app, H, IH.
Qed.
Lemma ren_members_of : forall s, members_of (renStruct nu s) = map (renMember nu (toField nu (sname s))) (members_of s).
Proof. intros s. unfold members_of, renStruct. cbn [smembers]. now destruct (smembers s). Qed.
Lemma ren_extern : forall s, Extern (renStruct nu s) = Extern s.
Proof. intros s. unfold Extern, renStruct. cbn [smembers]. now destruct (smembers s). Qed.
Lemma checked_names : forall cm q s, checkStruct cm q s = true -> NoDup (map cm (flat_map fieldNames (members_of s))) /\ NoDup (scontexts s).
Proof.
  intros cm q s C. unfold checkStruct in C. rewrite !andb_true_iff in C. destruct C as (((_ & N) & _) & S). split; [now apply nodupb_NoDup|].
  unfold checkScope in S. destruct (receiverName (sname s)); try discriminate. rewrite !andb_true_iff in S. destruct S as (_ & S). now apply nodupb_NoDup.
Qed.
Lemma both_names : forall s, checkStruct camel r s = true -> checkStruct camel' r' (renStruct nu s) = true ->
  NoDup (map camel (flat_map fieldNames (members_of s))) /\ NoDup (map (fun n => camel' (toField nu (sname s) n)) (flat_map fieldNames (members_of s))) /\
  NoDup (scontexts s) /\ NoDup (map (toContext nu) (scontexts s)).
Proof.
  intros s C C'. destruct (checked_names _ _ _ C) as [A B]. destruct (checked_names _ _ _ C') as [A' B']. split; auto. split; auto.
  rewrite ren_members_of, names_map, map_map in A'. exact A'.
Qed.

Lemma allNames : forall ms, map fst (flat_map allFields ms) = flat_map fieldNames ms.
Proof.
  assert (H : forall m, map fst (allFields m) = fieldNames m).
  { induction m as [nm t|u tag len cs IH| | |] using member_ind'; auto. cbn [allFields fieldNames].
    induction cs as [|[l ms] cs IHc]; cbn [flat_map]; auto. rewrite map_app, IHc by exact (Forall_inv_tail IH). f_equal.
    pose proof (Forall_inv IH) as I1. cbn in I1. clear - I1. induction ms as [|m ms IHm]; cbn [flat_map]; auto.
    rewrite map_app, (Forall_inv I1), IHm; auto. exact (Forall_inv_tail I1). }
  induction ms as [|m ms IH]; cbn [flat_map]; auto. now rewrite map_app, H, IH.
Qed.
Definition renField (phi : string -> string) (f : string * type) : string * type := (phi (fst f), renType nu phi (snd f)).
Lemma allFields_map : forall phi ms, flat_map allFields (map (renMember nu phi) ms) = map (renField phi) (flat_map allFields ms).
Proof.
  intros phi. assert (H : forall m, allFields (renMember nu phi m) = map (renField phi) (allFields m)).
  { induction m as [nm t|u tag len cs IH| | |] using member_ind'; auto. cbn [renMember allFields].
    induction cs as [|[l ms] cs IHc]; cbn [map flat_map]; auto. rewrite map_app, IHc by exact (Forall_inv_tail IH). f_equal.
    pose proof (Forall_inv IH) as I1. cbn in I1. clear - I1. induction ms as [|m ms IHm]; cbn [map flat_map]; auto.
    rewrite map_app, (Forall_inv I1), IHm; auto. exact (Forall_inv_tail I1). }
  induction ms as [|m ms IH]; cbn [map flat_map]; auto. now rewrite map_app, H, IH.
Qed.

(** Types of fields that pass the checks. *)
Lemma field_checked : forall ctxs ms k f, checkMembers r ctxs k ms = true -> In f (flat_map allFields ms) -> exists k', checkType r ctxs k' (snd f) = true.
Proof.
  intros ctxs. assert (H : forall m k f, checkMember r ctxs k m = true -> In f (allFields m) -> exists k', checkType r ctxs k' (snd f) = true).
  { induction m as [nm t|u tag len cs IH| | |] using member_ind'; intros k f C I; cbn [allFields] in I; try contradiction.
    - destruct I as [<-|[]]. exists k. exact C.
    - destruct (check_union _ _ _ _ _ _ _ C) as (_ & _ & CC). apply in_flat_map in I as ([l ms] & Ic & I). destruct (CC _ Ic) as [_ CM]. cbn [ucase_members] in CM.
      rewrite Forall_forall in IH. specialize (IH _ Ic). cbn [ucase_members] in IH. clear - IH CM I. revert k CM I. induction ms as [|m ms IHm]; intros k CM I; [destruct I|].
      cbn [checkMembers flat_map] in *. apply andb_true_iff in CM as [C1 C2]. apply in_app_iff in I as [I|I]; [exact (Forall_inv IH _ _ C1 I)|]. eapply IHm; eauto. exact (Forall_inv_tail IH). }
  induction ms as [|m ms IH]; intros k f C I; [destruct I|]. cbn [checkMembers flat_map] in *. apply andb_true_iff in C as [C1 C2].
  apply in_app_iff in I as [I|I]; eauto.
Qed.
Lemma ren_blank : forall ctxs k phi t, checkType r ctxs k t = true -> blankOf cv' (renType nu phi t) = blankOf cv t.
Proof.
  intros ctxs k phi t C. destruct t as [sz o| | | |nm|b i|b c]; cbn [renType blankOf]; auto. cbn [checkType] in C. apply andb_true_iff in C as [C G].
  unfold goodCount in G. destruct (int_value cv i) as [v|] eqn:E; [|discriminate]. rewrite (ren_int _ _ E). f_equal. f_equal.
  destruct b; cbn in *; auto; discriminate.
Qed.
Lemma ren_blank_rows : forall s, checkStruct camel r s = true ->
  rows camel (fun n => camel' (toField nu (sname s) n)) (flat_map fieldNames (members_of s)) (blank camel cv s) (blank camel' cv' (renStruct nu s)).
Proof.
  intros s C. destruct (checked_parts _ _ _ C) as (CM & _). unfold blank. rewrite ren_members_of, allFields_map, map_map.
  rewrite <- allNames. assert (T : forall f, In f (flat_map allFields (members_of s)) -> exists k', checkType r (scontexts s) k' (snd f) = true) by (intros; eapply field_checked; eauto).
  revert T. induction (flat_map allFields (members_of s)) as [|[nm t] l IH]; intros T; cbn [map]; [constructor|]. cbn [fst snd renField].
  destruct (T _ (or_introl eq_refl)) as [k' Ct]. cbn [snd] in Ct. rewrite (ren_blank _ _ _ _ Ct). apply (rows_cons camel (fun n => camel' (toField nu (sname s) n)) nm); auto. apply IH. intros f I. apply T. now right.
Qed.

Lemma args_cenv : forall l, NoDup l -> NoDup (map (toContext nu) l) -> forall cenv cenv', cenvR l cenv cenv' ->
  exists args args', ctxArgs cenv l = Ok args /\ ctxArgs cenv' (map (toContext nu) l) = Ok args' /\ cenvR l (combine l args) (combine (map (toContext nu) l) args').
Proof.
  induction l as [|x l IH]; intros N N' cenv cenv' R.
  - exists [], []. repeat split; auto. intros x [].
  - cbn [map] in N'. inversion N as [|? ? X N1]; subst. inversion N' as [|? ? X' N1']; subst. destruct (IH N1 N1' cenv cenv') as (args & args' & E & E' & R1); [intros y I; apply R; now right|].
    destruct (R x (or_introl eq_refl)) as (c & v & v' & Hc & CN & L & L' & A). exists (v :: args), (v' :: args').
    unfold ctxArgs in *. cbn [mapM map]. rewrite L, L', E, E'. cbn [bind]. split; auto. split; auto. intros y [<-|I].
    + exists c, v, v'. cbn [combine alookup]. rewrite !String.eqb_refl. auto 8.
    + destruct (R1 y I) as (c1 & w & w' & Hc1 & CN1 & L1 & L1' & A1). exists c1, w, w'. cbn [combine alookup].
      destruct (String.eqb y x) eqn:Eq; [apply String.eqb_eq in Eq; exfalso; apply X; rewrite <- Eq; exact I|].
      destruct (String.eqb (toContext nu y) (toContext nu x)) eqn:Eq'; [apply String.eqb_eq in Eq'; destruct X'; rewrite <- Eq'; now apply in_map|]. auto 8.
Qed.
Lemma ren_call : forall m nm s cenv cenv' c, Struct r nm = Some s -> Extern s = false -> cenvR (scontexts s) cenv cenv' ->
  alike bareV (decCall camel r m nm cenv c) (decCall camel' r' m (toStruct nu nm) cenv' c).
Proof.
  induction m as [|m IH]; intros nm s cenv cenv' c E X R; destruct (Hs _ _ E X) as (C & SN & E' & C'); cbn [decCall]; rewrite E, E';
    destruct (structDecl_ok camel r s C) as [ds Hds]; destruct (structDecl_ok camel' r' _ C') as [ds' Hds']; rewrite Hds, Hds'; cbn [bind];
    destruct (both_names s C C') as (N1 & N2 & N3 & N4); change (scontexts (renStruct nu s)) with (map (toContext nu) (scontexts s));
    destruct (args_cenv _ N3 N4 _ _ R) as (args & args' & EA & EA' & R1); rewrite EA, EA'; cbn [bind]; [exact I|].
  rewrite (zeros_blank camel r s ds Hds), (zeros_blank camel' r' _ ds' Hds'). rewrite ren_members_of. destruct (checked_parts _ _ _ C) as (CM & _).
  eapply alike_bind.
  - apply (ren_members (decCall camel r m) (decCall camel' r' m) IH m (scontexts s) _ _ R1 c (toField nu (sname s)) (flat_map fieldNames (members_of s)) N1 N2 _ []); auto using incl_refl; [intros x []|].
    now apply ren_blank_rows.
  - intros fs1 fs1' c1 Rw. cbn. split; auto. apply bare_struct. eapply rows_bares; eauto.
Qed.
Theorem ren_struct : forall m s fs fs' cenv cenv' c, checkStruct camel r s = true -> checkStruct camel' r' (renStruct nu s) = true -> cenvR (scontexts s) cenv cenv' ->
  rows camel (fun n => camel' (toField nu (sname s) n)) (flat_map fieldNames (members_of s)) fs fs' ->
  alike (rows camel (fun n => camel' (toField nu (sname s) n)) (flat_map fieldNames (members_of s)))
    (decStruct camel r m s fs cenv c) (decStruct camel' r' m (renStruct nu s) fs' cenv' c).
Proof.
  intros [|m] s fs fs' cenv cenv' c C C' R Rw; [exact I|]. cbn [decStruct]. rewrite ren_members_of. destruct (both_names s C C') as (N1 & N2 & _). destruct (checked_parts _ _ _ C) as (CM & _).
  apply (ren_members (decCall camel r m) (decCall camel' r' m) (ren_call m) m (scontexts s) _ _ R c (toField nu (sname s)) (flat_map fieldNames (members_of s)) N1 N2 _ []); auto using incl_refl.
  intros x [].
Qed.
End Ren.
