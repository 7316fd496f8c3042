(** C70, C71: which changes of the declarations leave parsers as they are. *)
From Coq Require Import ZArith String List Bool Lia ZifyBool ZifyNat.
From Verif Require Import Base Ast IntervalsModel InspectModel InspectSpec InspectProofs GoLang GenModel GenDecode GenCheck GenSimBody WireSpec WireProofs WireComplete WireFacts GenTerm
  PackageSpec PackageProofs PackageFacts SameSpec SameProofs GenExamples P_Parse.
Import ListNotations.
Open Scope string_scope.
Open Scope list_scope.
Open Scope Z_scope.

(** Calls of two packages end alike. *)
Record sameEnds (camel : string -> string) (p p' : program) (s s' : struct) (fs0 : amap value) (data : bytes) (args : list value) : Prop := {
  se_parses : forall fs1 rest, parses camel p s fs0 data args fs1 rest <-> parses camel p' s' fs0 data args fs1 rest;
  se_fails : forall e, fails camel p s fs0 data args e <-> fails camel p' s' fs0 data args e;
  se_panics : forall m, panics camel p s fs0 data args m <-> panics camel p' s' fs0 data args m;
  se_never : neverEnds camel p s fs0 data args <-> neverEnds camel p' s' fs0 data args }.

Section Two.
Variable camel : string -> string.
Variable os os' : nat -> orders.
Variable fs fs' : list file.
Variable r r' : resolver.
Variable p p' : program.
Hypothesis PK : package camel os fs r p.
Hypothesis PK' : package camel os' fs' r' p'.
Notation cv := (Constant r).
Notation cv' := (Constant r').
Hypothesis INC : included cv cv' fs fs'.

Lemma same_found : forall nm s, Struct r nm = Some s -> Extern s = false ->
  checkStruct camel r s = true /\ exists s', Struct r' nm = Some s' /\ sameStruct cv cv' s s'.
Proof.
  intros nm s HS HE. split; [eapply str_check; eauto|]. destruct (str_defines camel os fs r p PK nm s HS HE) as [[_ (f & If & Is)] N].
  destruct (inc_structs _ _ _ _ INC f s If Is HE) as (f' & s' & If' & Is' & SS). exists s'. split; auto.
  destruct SS as (E1 & _ & X & _). apply (pk_struct camel os' fs' r' p' PK' nm s' X). split; [|congruence]. apply (defines_in fs' s'). split; eauto.
Qed.
Lemma same_context : forall x c, Context r x = Some c -> Context r' x = Some c.
Proof.
  intros x c H. destruct PK as [V R _ _], PK' as [V' R' _ _]. destruct (addFiles_answers _ _ _ _ _ V R) as (_ & A & _). destruct (addFiles_answers _ _ _ _ _ V' R') as (_ & A' & _).
  apply A in H as [H|(f & I & J & N)]; [discriminate|]. destruct (inc_contexts _ _ _ _ INC f c I J) as (f' & I' & J'). apply A'. right. eauto.
Qed.

Lemma same_value : forall t t' v, sameT cv cv' t t' -> goValue camel r t v -> goValue camel r' t' v.
Proof.
  intros t t' v S. destruct S; cbn [goValue]; auto. intros (vs & -> & E). exists vs. split; auto. destruct H as (z & E1 & E2). congruence.
Qed.
Lemma same_blank : forall t t', sameT cv cv' t t' -> blankOf cv t = blankOf cv' t'.
Proof.
  induction 1 as [| | | | |b b' i i' S IH I|]; cbn [blankOf]; auto. destruct I as (v & -> & ->). now rewrite IH.
Qed.
Definition sameF (f f' : string * type) : Prop := fst f = fst f' /\ sameT cv cv' (snd f) (snd f').
Lemma same_fields : forall m m', sameM cv cv' m m' -> Forall2 sameF (allFields m) (allFields m').
Proof.
  induction m as [nm t|u tag len cs IH| | |] using member_ind'; intros m' S; inversion S; subst; cbn [allFields]; auto.
  - constructor; auto. split; auto.
  - match goal with F : Forall2 _ cs cs' |- _ => revert IH; clear - F; induction F as [|? ? cs0 cs1 [l l' ms ms' L M] F IHF] end; intros IH; cbn [flat_map]; auto.
    apply Forall2_app; [|apply IHF; exact (Forall_inv_tail IH)]. pose proof (Forall_inv IH) as I1. cbn in I1. clear - M I1.
    induction M as [|m m' ms ms' SM M IHM]; cbn [flat_map]; auto. apply Forall2_app; [exact (Forall_inv I1 _ SM)|apply IHM; exact (Forall_inv_tail I1)].
Qed.
Lemma same_all : forall ms ms', Forall2 (sameM cv cv') ms ms' -> Forall2 sameF (flat_map allFields ms) (flat_map allFields ms').
Proof. induction 1; cbn [flat_map]; auto. apply Forall2_app; auto. now apply same_fields. Qed.
Lemma same_recv : forall s s' fs0, sameStruct cv cv' s s' -> goStruct camel r s fs0 -> goStruct camel r' s' fs0.
Proof.
  intros s s' fs0 (_ & _ & _ & F) G. unfold goStruct in *. apply same_all in F. revert F. generalize (flat_map allFields (members_of s')) as l'.
  induction G as [|[n t] kv l vs [E V] G IH]; intros l' F; inversion F as [|? [n' t'] ? l1 [E1 S1] F1]; subst; constructor; auto.
  cbn [fst snd] in *. subst n'. split; auto. now apply (same_value t).
Qed.
Lemma same_new : forall s s', sameStruct cv cv' s s' -> blank camel cv s = blank camel cv' s'.
Proof.
  intros s s' (_ & _ & _ & F). unfold blank. apply same_all in F. induction F as [|[n t] [n' t'] l l' [E S] F IH]; auto.
  cbn [map fst snd] in *. subst n'. now rewrite (same_blank t t' S), IH.
Qed.

Variable s s' : struct.
Hypothesis SS : sameStruct cv cv' s s'.
Hypothesis D' : defines fs' s'.
Section Call.
Variable fs0 : amap value.
Variable data : bytes.
Variable args : list value.
Hypothesis VC : validCall camel fs r s fs0 data args.
Lemma same_valid : validCall camel fs' r' s' fs0 data args.
Proof.
  constructor; auto; try apply VC.
  - pose proof (vc_args _ _ _ _ _ _ _ VC) as A. unfold ctxValues in *. destruct SS as (_ & <- & _). clear VC. induction A as [|x v xs vs (c & E & V) A IH]; constructor; auto.
    exists c. split; auto. now apply same_context.
  - apply (same_recv s); auto. apply VC.
Qed.
Lemma same_dec : forall n, decStruct camel r n s fs0 (contextsOf s args) data = decStruct camel r' n s' fs0 (contextsOf s' args) data.
Proof.
  intros n. replace (contextsOf s' args) with (contextsOf s args) by (unfold contextsOf; destruct SS as (_ & -> & _); reflexivity).
  apply (same_struct camel r r' same_found); auto. eapply vc_check; eauto.
Qed.
Lemma same_ends : sameEnds camel p p' s s' fs0 data args.
Proof.
  pose proof same_valid as VC'. constructor; intros.
  - rewrite (parses_dec camel os fs r p PK _ _ _ _ VC), (parses_dec camel os' fs' r' p' PK' _ _ _ _ VC'). split; intros [n H]; exists n; rewrite <- H; [symmetry|]; apply same_dec.
  - rewrite (fails_dec camel os fs r p PK _ _ _ _ VC), (fails_dec camel os' fs' r' p' PK' _ _ _ _ VC'). split; intros [n H]; exists n; rewrite <- H; [symmetry|]; apply same_dec.
  - rewrite (panics_dec camel os fs r p PK _ _ _ _ VC), (panics_dec camel os' fs' r' p' PK' _ _ _ _ VC'). split; intros [n H]; exists n; rewrite <- H; [symmetry|]; apply same_dec.
  - unfold neverEnds. split; intros H n; specialize (H n).
    + apply (run_fuel camel os fs r p PK _ _ _ _ VC) in H. apply (run_fuel camel os' fs' r' p' PK' _ _ _ _ VC'). now rewrite <- same_dec.
    + apply (run_fuel camel os' fs' r' p' PK' _ _ _ _ VC') in H. apply (run_fuel camel os fs r p PK _ _ _ _ VC). now rewrite same_dec.
Qed.
End Call.
Lemma same_ctor : forall data args, defines fs s -> ctxValues camel r s args -> goBytes data ->
  forall n, runNew camel p n s data args = runNew camel p' n s' data args.
Proof.
  intros data args D CV B n. apply defines_in in D.
  assert (VC : validCall camel fs r s (blank camel cv s) data args).
  { constructor; auto; [now apply defines_in|]. eapply blank_goStruct; eauto. }
  pose proof (same_valid _ _ _ VC) as VC'. pose proof (new_run camel os fs r p PK n s data args D CV B) as N.
  pose proof (new_run camel os' fs' r' p' PK' n s' data args ltac:(now apply defines_in) (vc_args _ _ _ _ _ _ _ VC') B) as N'.
  change (cenvOf s args) with (contextsOf s args) in N. change (cenvOf s' args) with (contextsOf s' args) in N'.
  rewrite <- (same_new s s' SS), <- (same_dec _ _ _ VC) in N'. assert (E : sname s = sname s') by apply SS. rewrite <- E in N'.
  destruct (decStruct camel r n s (blank camel cv s) (contextsOf s args) data) as [[fs1 c1]| | |]; cbn [newEnds] in *; congruence.
Qed.
End Two.

(* ---------- the same declarations and further ones ---------- *)

(** All that [fs] declares is declared in [fs'] too, in whatever files. *)
Record declaresToo (fs fs' : list file) : Prop := {
  dt_constants : forall f c, In f fs -> In c (fconstants f) -> exists f', In f' fs' /\ In c (fconstants f');
  dt_contexts : forall f c, In f fs -> In c (fcontexts f) -> exists f', In f' fs' /\ In c (fcontexts f');
  dt_structs : forall f s, In f fs -> In s (fstructs f) -> Extern s = false -> exists f', In f' fs' /\ In s (fstructs f') }.

Section Refl.
Variable r r' : resolver.
Notation cv := (Constant r).
Notation cv' := (Constant r').
Hypothesis Hcv : forall n v, cv n = Some v -> cv' n = Some v.
Lemma grow_int : forall i v, int_value cv i = Some v -> int_value cv' i = Some v.
Proof. intros [n|z] v H; cbn [int_value] in *; auto. Qed.
Lemma grow_range : forall g b, range_bounds cv g = Some b -> range_bounds cv' g = Some b.
Proof.
  intros [lo hi] b. unfold range_bounds. cbn [rlow rhigh]. destruct (int_value cv lo) as [l|] eqn:E; [|discriminate]. rewrite (grow_int _ _ E).
  destruct hi as [h|]; auto. destruct (int_value cv h) as [h'|] eqn:E'; [|discriminate]. now rewrite (grow_int _ _ E').
Qed.
Lemma grow_list : forall l, definedList r l = true -> sameList cv cv' l l.
Proof.
  intros l D x. unfold definedList in D. apply andb_true_iff in D as [D _]. rewrite forallb_forall in D. unfold in_list. split.
  - intros (g & a & b & I & E & B). exists g, a, b. split; auto. split; auto. now apply grow_range.
  - intros (g & a & b & I & E & B). exists g, a, b. split; auto. split; auto. specialize (D g I). destruct (range_bounds cv g) as [q|] eqn:E'; [|discriminate].
    rewrite (grow_range _ _ E') in E. congruence.
Qed.
Lemma grow_lists : forall o, match o with None => true | Some l => definedList r l end = true -> sameLists cv cv' o o.
Proof. intros [l|] H; cbn [sameLists]; auto. now apply grow_list. Qed.
Lemma grow_count : forall i, goodCount r i = true -> sameInt cv cv' i i.
Proof. intros i H. unfold goodCount in H. destruct (int_value cv i) as [v|] eqn:E; [|discriminate]. exists v. split; auto. now apply grow_int. Qed.
Lemma grow_base : forall ctxs t, checkBase r ctxs t = true -> sameT cv cv' t t.
Proof.
  intros ctxs t C. destruct t; cbn [checkBase] in C; try discriminate; constructor. apply grow_lists. unfold checkInt in C. now apply andb_true_iff in C.
Qed.
Lemma grow_type : forall ctxs k t, checkType r ctxs k t = true -> sameT cv cv' t t.
Proof.
  intros ctxs k t C. destruct t as [sz o| | | |n|b i|b [[f|i]|]]; cbn [checkType] in C; try (eapply grow_base; exact C); try (apply andb_true_iff in C as [C C2]);
    constructor; try (eapply grow_base; exact C); cbn [sameLengths sameLength]; auto; try (now apply grow_count).
Qed.
Lemma grow_member : forall ctxs m k, checkMember r ctxs k m = true -> sameM cv cv' m m.
Proof.
  intros ctxs. induction m as [nm t|u tag len cs IH| | |] using member_ind'; intros k C; constructor.
  - cbn [checkMember] in C. eapply grow_type; eauto.
  - destruct len as [[f|i]|]; cbn [sameLengths sameLength]; auto. cbn [checkMember] in C. apply andb_true_iff in C as [C _]. apply andb_true_iff in C as [_ C]. now apply grow_count.
  - destruct (check_union _ _ _ _ _ _ _ C) as (_ & _ & CC). clear C. induction cs as [|[l ms] cs IHc]; constructor; [|apply IHc; [exact (Forall_inv_tail IH)|intros c I; apply CC; now right]].
    destruct (CC _ (or_introl eq_refl)) as [CL CM]. cbn [ucase_list ucase_members] in *. constructor; [apply grow_lists; destruct l; auto|].
    pose proof (Forall_inv IH) as I1. cbn in I1. clear - I1 CM. revert k CM. induction ms as [|m ms IHm]; intros k CM; constructor; cbn [checkMembers] in CM; apply andb_true_iff in CM as [C1 C2].
    + exact (Forall_inv I1 k C1).
    + eapply IHm; eauto. exact (Forall_inv_tail I1).
Qed.
Lemma grow_struct : forall camel s, checkStruct camel r s = true -> Extern s = false -> sameStruct cv cv' s s.
Proof.
  intros camel s C X. split; auto. split; auto. split; auto. destruct (checked_parts _ _ _ C) as (CM & _). revert CM. generalize ([] : GenCheck.known).
  induction (members_of s) as [|m ms IH]; intros k CM; constructor; cbn [checkMembers] in CM; apply andb_true_iff in CM as [C1 C2]; eauto using grow_member.
Qed.
End Refl.
Section More.
Variable camel : string -> string.
Variable os os' : nat -> orders.
Variable fs fs' : list file.
Variable r r' : resolver.
Variable p p' : program.
Hypothesis PK : package camel os fs r p.
Hypothesis PK' : package camel os' fs' r' p'.
Hypothesis DT : declaresToo fs fs'.
Lemma more_constants : forall n v, Constant r n = Some v -> Constant r' n = Some v.
Proof.
  intros n v H. destruct PK as [V R _ _], PK' as [V' R' _ _]. destruct (addFiles_answers _ _ _ _ _ V R) as (_ & _ & A). destruct (addFiles_answers _ _ _ _ _ V' R') as (_ & _ & A').
  apply A in H as [H|(f & c & I & J & N)]; [discriminate|]. destruct (dt_constants _ _ DT f c I J) as (f' & I' & J'). apply A'. right. eauto 6.
Qed.
Lemma more_struct : forall s, defines fs s -> sameStruct (Constant r) (Constant r') s s.
Proof.
  intros s D. apply (grow_struct r r' more_constants camel); [|apply D]. eapply pk_check; eauto. now apply defines_in.
Qed.
Lemma more_included : included (Constant r) (Constant r') fs fs'.
Proof.
  constructor; [|apply DT]. intros f s I J X. destruct (dt_structs _ _ DT f s I J X) as (f' & I' & J'). exists f', s. split; auto. split; auto.
  apply more_struct. split; eauto.
Qed.
Lemma more_defines : forall s, defines fs s -> defines fs' s.
Proof. intros s (X & f & I & J). split; auto. eapply dt_structs; eauto. Qed.
End More.

(** C71. Of integers only the values matter, of lists of integers only which
    integers they contain: parsers generated from declarations that agree in this sense
    do the same. *)
Theorem C71_same_meaning : forall camel os os' fs fs' r r' p p', package camel os fs r p -> package camel os' fs' r' p' ->
  included (Constant r) (Constant r') fs fs' ->
  forall s s', defines fs s -> defines fs' s' -> sameStruct (Constant r) (Constant r') s s' ->
  forall fs0 data args, validCall camel fs r s fs0 data args ->
  validCall camel fs' r' s' fs0 data args /\ sameEnds camel p p' s s' fs0 data args.
Proof.
  intros camel os os' fs fs' r r' p p' PK PK' INC s s' D D' SS fs0 data args VC.
  split; [exact (same_valid camel os os' fs fs' r r' p p' PK PK' INC s s' SS D' fs0 data args VC)|exact (same_ends camel os os' fs fs' r r' p p' PK PK' INC s s' SS D' fs0 data args VC)].
Qed.
Print Assumptions C71_same_meaning.
Theorem C71_same_new : forall camel os os' fs fs' r r' p p', package camel os fs r p -> package camel os' fs' r' p' ->
  included (Constant r) (Constant r') fs fs' ->
  forall s s', defines fs s -> defines fs' s' -> sameStruct (Constant r) (Constant r') s s' ->
  forall data args, ctxValues camel r s args -> goBytes data -> forall n, runNew camel p n s data args = runNew camel p' n s' data args.
Proof. intros; eapply (same_ctor camel os os' fs fs' r r'); eauto. Qed.
Print Assumptions C71_same_new.

(** The example of GenExamples.v written differently: [y IN [3, 1..2]],
    [count IN [4, 0..1, 1..3]], [pair[TWO]], [body[..-ONE]], case [ONE] of the union,
    which has another name. *)
Definition point2 : struct :=
  mkStruct "point" [] (Some [u8 "x"; MField "y" (TInt 8 (Some [mkRange (ILit 3) None; mkRange (ILit 1) (Some (IConst "TWO"))]))]).
Definition msg2 : struct :=
  mkStruct "msg" ["opts"] (Some
    [u8 "tag"; u8 "len"; MField "pos" TPtr;
     MUnion "content" (local "tag") (Some (LRef (local "len"))) (UCase (Some [mkRange (IConst "ONE") None]) [MField "p" (TStruct "point"); MField "q" (TStruct "point")] :: tl bodyCases);
     MField "count" (TInt 8 (Some [mkRange (ILit 4) None; mkRange (ILit 0) (Some (IConst "ONE")); mkRange (ILit 1) (Some (ILit 3))]));
     MField "pts" (TVar (TStruct "point") (Some (LRef (local "count"))));
     MField "pair" (TFixed (TInt 16 None) (IConst "TWO"));
     MField "more" (TVar (TInt 8 None) (Some (LRef (mkRef "opts" "extra"))))]).
Definition tail2 : struct :=
  mkStruct "tail" [] (Some [u8 "kind"; MField "body" (TVar (TInt 8 None) (Some (LLeftover (IConst "ONE")))); u8 "last"; MEOS]).
Definition demo2 : list file :=
  [mkFile [mkConst "TWO" 2; mkConst "ONE" 1] [mkCtx "opts" [("extra", TInt 8 None)]] [] []; mkFile [] [] [tail2; msg2; point2] []].
Definition demo2R := theRes demo2.
Lemma demo2_package : package camelX osX demo2 demo2R (theProg demo2).
Proof. apply package_of. vm_compute. reflexivity. Qed.
Lemma same_ranges : forall l l', sameList (Constant demoR) (Constant demo2R) l l' <-> (forall x, inList demoR x l = inList demo2R x l').
Proof.
  intros l l'. split.
  - intros H x. now apply same_inList.
  - intros H x. rewrite <- !inList_spec. rewrite (H x). tauto.
Qed.
Lemma same_self : forall l, forallb (fun g => match g with mkRange (ILit _) None | mkRange (ILit _) (Some (ILit _)) => true | _ => false end) l = true ->
  sameList (Constant demoR) (Constant demo2R) l l.
Proof.
  intros l H x. unfold in_list. rewrite forallb_forall in H.
  assert (E : forall g, In g l -> range_bounds (Constant demoR) g = range_bounds (Constant demo2R) g).
  { intros g I. specialize (H g I). destruct g as [[n|z] [[n'|z']|]]; try discriminate; reflexivity. }
  split; intros (g & a & b & I & R & B); exists g, a, b; (split; [|split]); auto; [rewrite <- E|rewrite E]; auto.
Qed.
Ltac sameField := constructor; (constructor || (constructor; constructor)); cbn [sameLists sameLengths sameLength]; auto.
Lemma point_same : sameStruct (Constant demoR) (Constant demo2R) point point2.
Proof.
  split; [reflexivity|]. split; [reflexivity|]. split; [reflexivity|]. cbn [members_of point point2 smembers]. constructor; [sameField|]. constructor; [|constructor].
  constructor. constructor. cbn [sameLists]. apply same_ranges. intros x.
  change (inList demoR x [mkRange (ILit 1) (Some (IConst "LIMIT"))]) with (((1 <=? x) && (x <=? 3)) || false).
  change (inList demo2R x [mkRange (ILit 3) None; mkRange (ILit 1) (Some (IConst "TWO"))]) with (((3 <=? x) && (x <=? 3)) || (((1 <=? x) && (x <=? 2)) || false)). lia.
Qed.
Lemma tail_same : sameStruct (Constant demoR) (Constant demo2R) tail tail2.
Proof.
  split; [reflexivity|]. split; [reflexivity|]. split; [reflexivity|]. cbn [members_of tail tail2 smembers]. constructor; [sameField|]. constructor; [|repeat constructor].
  constructor. constructor; [constructor; exact I|]. exists 1. split; vm_compute; reflexivity.
Qed.
Lemma msg_same : sameStruct (Constant demoR) (Constant demo2R) msg msg2.
Proof.
  split; [reflexivity|]. split; [reflexivity|]. split; [reflexivity|]. cbn [members_of msg msg2 smembers body].
  constructor; [sameField|]. constructor; [sameField|]. constructor; [sameField|]. constructor.
  { constructor; [reflexivity|]. unfold bodyCases. cbn [tl]. constructor.
    { constructor; [|repeat (constructor; [repeat constructor|]); constructor]. cbn [sameLists is]. apply same_ranges. intros x.
      change (inList demoR x [mkRange (ILit 1) None]) with (((1 <=? x) && (x <=? 1)) || false). change (inList demo2R x [mkRange (IConst "ONE") None]) with (((1 <=? x) && (x <=? 1)) || false). reflexivity. }
    repeat (constructor; [constructor; [first [exact I|apply same_self; reflexivity]|repeat (constructor; [repeat constructor|]); constructor]|]). constructor. }
  constructor.
  { constructor. constructor. cbn [sameLists]. apply same_ranges. intros x.
    change (inList demoR x [mkRange (ILit 0) (Some (ILit 4))]) with (((0 <=? x) && (x <=? 4)) || false).
    change (inList demo2R x [mkRange (ILit 4) None; mkRange (ILit 0) (Some (IConst "ONE")); mkRange (ILit 1) (Some (ILit 3))])
      with (((4 <=? x) && (x <=? 4)) || (((0 <=? x) && (x <=? 1)) || (((1 <=? x) && (x <=? 3)) || false))). lia. }
  constructor. { constructor. constructor; [constructor|reflexivity]. }
  constructor. { constructor. constructor; [constructor; exact I|]. exists 2. split; vm_compute; reflexivity. }
  constructor; [|constructor]. constructor. constructor; [constructor; exact I|reflexivity].
Qed.
Lemma demo_included : included (Constant demoR) (Constant demo2R) demo demo2.
Proof.
  constructor.
  - intros f s If Is X. assert (D : defines demo s) by (split; eauto). exists (mkFile [] [] [tail2; msg2; point2] []).
    apply demo_structs in D as [->|[->| ->]]; [exists point2|exists msg2|exists tail2]; (split; [right; left; reflexivity|]); cbn [fstructs];
      (split; [cbn; auto|]); [exact point_same|exact msg_same|exact tail_same].
  - intros f c [<-|[]] [<-|[]]. eexists. split; [left; reflexivity|]. now left.
Qed.
Lemma demo2_msg : defines demo2 msg2.
Proof. split; [reflexivity|]. eexists. split; [right; left; reflexivity|]. cbn. auto. Qed.
Example C71_case : parses camelX (theProg demo2) msg2 (blank camelX (Constant demoR) msg) (msgBytes ++ msgRest) [optsV 2] msgFields msgRest /\ point2 <> point.
Proof.
  split; [|discriminate].
  apply (C71_same_meaning camelX osX osX demo demo2 demoR demo2R demoP (theProg demo2) demo_package demo2_package demo_included msg msg2 demo_msg demo2_msg msg_same).
  - exact (msg_call _ 2 msg_bytes ltac:(lia)).
  - exact msg_parses.
Qed.

(** C70. Further declarations, and the distribution of declarations over files, do
    not change the parsers. *)
Theorem C70_more_declarations : forall camel os os' fs fs' r r' p p', package camel os fs r p -> package camel os' fs' r' p' ->
  declaresToo fs fs' -> forall s fs0 data args, validCall camel fs r s fs0 data args ->
  validCall camel fs' r' s fs0 data args /\ sameEnds camel p p' s s fs0 data args.
Proof.
  intros camel os os' fs fs' r r' p p' PK PK' DT s fs0 data args VC.
  apply (C71_same_meaning camel os os' fs fs' r r' p p' PK PK'); auto; try apply VC.
  - eapply more_included; eauto.
  - eapply more_defines; eauto. apply VC.
  - eapply more_struct; eauto. apply VC.
Qed.
Print Assumptions C70_more_declarations.
Theorem C70_more_new : forall camel os os' fs fs' r r' p p', package camel os fs r p -> package camel os' fs' r' p' ->
  declaresToo fs fs' -> forall s data args, defines fs s -> ctxValues camel r s args -> goBytes data ->
  forall n, runNew camel p n s data args = runNew camel p' n s data args.
Proof.
  intros camel os os' fs fs' r r' p p' PK PK' DT s data args D CV B n.
  apply (C71_same_new camel os os' fs fs' r r' p p' PK PK'); auto.
  - eapply more_included; eauto.
  - eapply more_defines; eauto.
  - eapply more_struct; eauto.
Qed.
Print Assumptions C70_more_new.

(** The example of GenExamples.v with its declarations in three files, and more. *)
Definition demo3 : list file :=
  [mkFile [mkConst "MORE" 9] [] [mkStruct "extra" [] (Some [MField "m" (TStruct "msg2")]); mkStruct "msg2" [] (Some [u8 "tag"])] [];
   mkFile [] [mkCtx "opts" [("extra", TInt 8 None)]] [tail; point] []; mkFile [mkConst "LIMIT" 3] [] [msg] []].
Lemma demo3_package : package camelX osX demo3 (theRes demo3) (theProg demo3).
Proof. apply package_of. vm_compute. reflexivity. Qed.
Lemma demo3_more : declaresToo demo demo3.
Proof.
  constructor.
  - intros f c [<-|[]] [<-|[]]. eexists. split; [right; right; left; reflexivity|]. now left.
  - intros f c [<-|[]] [<-|[]]. eexists. split; [right; left; reflexivity|]. now left.
  - intros f s If Is X. assert (D : defines demo s) by (split; eauto). apply demo_structs in D as [->|[->| ->]].
    + eexists. split; [right; left; reflexivity|]. right. now left.
    + eexists. split; [right; right; left; reflexivity|]. now left.
    + eexists. split; [right; left; reflexivity|]. now left.
Qed.
Example C70_case : parses camelX (theProg demo3) msg (blank camelX (Constant demoR) msg) (msgBytes ++ msgRest) [optsV 2] msgFields msgRest.
Proof.
  apply (C70_more_declarations camelX osX osX demo demo3 demoR (theRes demo3) demoP (theProg demo3) demo_package demo3_package demo3_more).
  - exact (msg_call _ 2 msg_bytes ltac:(lia)).
  - exact msg_parses.
Qed.
