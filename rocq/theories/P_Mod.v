(** Property C104: of a nested struct only what its parser does matters. *)
From Coq Require Import ZArith String List Bool Lia ZifyBool ZifyNat.
From Verif Require Import Base Ast IntervalsModel InspectModel InspectSpec InspectProofs GoLang GenModel GenDecode GenCheck GenSim GenSimBody GenSimProg GenMono WireSpec WireProofs WireComplete WireFacts GenTerm FwdProofs
  PackageSpec PackageProofs PackageFacts PackageMore GenExamples GenWitness ModProofs.
Import ListNotations.
Open Scope string_scope.
Open Scope list_scope.
Open Scope Z_scope.

(** The parsers of [t] in one program and of [t'] in another do the same with new values. *)
Definition alike (camel : string -> string) (r r' : resolver) (p p' : program) (t t' : struct) : Prop :=
  forall data args, ctxValues camel r t args -> goBytes data ->
  let new := blank camel (Constant r) t in let new' := blank camel (Constant r') t' in
  (forall fs1 rest, parses camel p t new data args fs1 rest <-> parses camel p' t' new' data args fs1 rest) /\
  (forall e, fails camel p t new data args e <-> fails camel p' t' new' data args e) /\
  (forall m, panics camel p t new data args m <-> panics camel p' t' new' data args m).

Section Half.
Variable camel : string -> string.
Variables os os' : nat -> orders.
Variables fs fs' : list file.
Variables r r' : resolver.
Variables p p' : program.
Hypothesis PK : package camel os fs r p.
Hypothesis PK' : package camel os' fs' r' p'.
Hypothesis CN : forall x, Constant r x = Constant r' x.
Hypothesis CX : forall x, Context r x = Context r' x.
Hypothesis ST : forall nm t, Struct r nm = Some t -> Extern t = false -> Struct r' nm = Some t \/ exists t', Struct r' nm = Some t' /\ Extern t' = false /\ scontexts t' = scontexts t /\ alike camel r r' p p' t t'.
Lemma ctx_same : forall s args, ctxValues camel r s args -> ctxValues camel r' s args.
Proof. intros s args. unfold ctxValues. induction 1 as [|x v l l' (c & E & V) F IH]; constructor; auto. rewrite CX in E. eauto. Qed.
Lemma go_same : forall s f, goStruct camel r s f -> goStruct camel r' s f.
Proof.
  intros s f H. unfold goStruct in *. induction H as [|[nm b] kv l l' [E V] F IH]; constructor; auto. split; auto. cbn [snd] in *. destruct b as [| | | | |b i|]; cbn [goValue] in *; auto.
  destruct V as (vs & -> & V). exists vs. split; auto. rewrite <- V. destruct i as [z|x]; cbn; auto.
Qed.
Lemma half_t : forall tn t t', Struct r tn = Some t -> Struct r' tn = Some t' -> Extern t = false -> Extern t' = false -> scontexts t' = scontexts t -> alike camel r r' p p' t t' ->
  forall args c n, ctxValues camel r t args -> goBytes c ->
  follows (decStruct camel r n t (blank camel (Constant r) t) (contextsOf t args) c) (fun k _ => decStruct camel r' k t' (blank camel (Constant r') t') (contextsOf t' args) c).
Proof.
  intros tn t t' SR SR' XT XT' SC AL args c n V G. destruct (str_defines camel os fs r p PK tn t SR XT) as [D _]. destruct (str_defines camel os' fs' r' p' PK' tn t' SR' XT') as [D' _].
  assert (VC : validCall camel fs r t (blank camel (Constant r) t) c args) by (constructor; auto; eapply blank_goStruct; eauto; now apply (defines_in fs)).
  assert (VC' : validCall camel fs' r' t' (blank camel (Constant r') t') c args).
  { constructor; auto. - apply ctx_same in V. unfold ctxValues in *. now rewrite SC. - eapply blank_goStruct; eauto. now apply (defines_in fs'). }
  destruct (AL c args V G) as (A1 & A2 & A3). cbn zeta in *.
  assert (FIN : forall o, (exists k, decStruct camel r' k t' (blank camel (Constant r') t') (contextsOf t' args) c = o) -> o <> OutOfFuel ->
    Ev (fun k _ => decStruct camel r' k t' (blank camel (Constant r') t') (contextsOf t' args) c = o)).
  { intros o [k E] N. exists k. intros k1 _ L _. eapply dec_final; eauto. }
  destruct (decStruct camel r n t (blank camel (Constant r) t) (contextsOf t args) c) as [[f rest]|e|m|] eqn:E; [right|right|right|now left]; apply FIN; try discriminate.
  - apply (parses_dec camel os' fs' r' p' PK' _ _ _ _ VC'). apply A1. apply (parses_dec camel os fs r p PK _ _ _ _ VC). eauto.
  - apply (fails_dec camel os' fs' r' p' PK' _ _ _ _ VC'). apply A2. apply (fails_dec camel os fs r p PK _ _ _ _ VC). eauto.
  - apply (panics_dec camel os' fs' r' p' PK' _ _ _ _ VC'). apply A3. apply (panics_dec camel os fs r p PK _ _ _ _ VC). eauto.
Qed.
Lemma half_top : forall m s fs0 args c, checkStruct camel r s = true -> ctxValues camel r s args -> goBytes c ->
  follows (decStruct camel r m s fs0 (contextsOf s args) c) (fun k _ => decStruct camel r' k s fs0 (contextsOf s args) c).
Proof.
  apply (mod_top camel r r' CN).
  - intros nm s E X. eapply (str_check camel os fs r p PK); eauto.
  - intros nm s E X. eapply (str_check camel os' fs' r' p' PK'); eauto.
  - intros nm t E X. destruct (ST nm t E X) as [E'|(t' & E' & X' & SC & AL)]; [now left|right]. exists t'. split; auto. split; auto. split; auto. eapply half_t; eauto.
Qed.
End Half.

(** C104.  Let two programs have the same declarations but for some structs, whose parsers do the same in
    both programs.  Then the parsers of all other structs do the same in both. *)
Theorem C104_nested : forall camel os os' fs fs' r r' p p', package camel os fs r p -> package camel os' fs' r' p' ->
  (forall x, Constant r x = Constant r' x) -> (forall x, Context r x = Context r' x) ->
  forall changed : string -> Prop, (forall nm, changed nm \/ Struct r nm = Struct r' nm) ->
  (forall nm, changed nm -> exists t t', Struct r nm = Some t /\ Struct r' nm = Some t' /\ Extern t = false /\ Extern t' = false /\ scontexts t' = scontexts t /\ alike camel r r' p p' t t') ->
  forall nm s, Struct r nm = Some s -> Struct r' nm = Some s -> Extern s = false ->
  forall fs0 data args, goStruct camel r s fs0 -> goBytes data -> ctxValues camel r s args ->
  (forall fs1 rest, parses camel p s fs0 data args fs1 rest <-> parses camel p' s fs0 data args fs1 rest) /\
  (forall e, fails camel p s fs0 data args e <-> fails camel p' s fs0 data args e) /\
  (forall m, panics camel p s fs0 data args m <-> panics camel p' s fs0 data args m) /\
  (neverEnds camel p s fs0 data args <-> neverEnds camel p' s fs0 data args).
Proof.
  intros camel os os' fs fs' r r' p p' PK PK' CN CX changed DC CH nm s SS SS' XS fs0 data args GS GB CV.
  destruct (str_defines camel os fs r p PK nm s SS XS) as [D _]. destruct (str_defines camel os' fs' r' p' PK' nm s SS' XS) as [D' _].
  assert (VC : validCall camel fs r s fs0 data args) by (constructor; auto).
  assert (CV' : ctxValues camel r' s args) by (eapply ctx_same; eauto).
  assert (VC' : validCall camel fs' r' s fs0 data args) by (constructor; auto; eapply go_same; eauto).
  assert (H1 : forall nm t, Struct r nm = Some t -> Extern t = false -> Struct r' nm = Some t \/ exists t', Struct r' nm = Some t' /\ Extern t' = false /\ scontexts t' = scontexts t /\ alike camel r r' p p' t t').
  { intros q t E X. destruct (DC q) as [C|C]; [right|left; congruence]. destruct (CH q C) as (t0 & t' & E0 & E' & _ & X' & SC & AL). rewrite E in E0. injection E0 as <-. exists t'. auto. }
  assert (H2 : forall nm t, Struct r' nm = Some t -> Extern t = false -> Struct r nm = Some t \/ exists t', Struct r nm = Some t' /\ Extern t' = false /\ scontexts t' = scontexts t /\ alike camel r' r p' p t t').
  { intros q t' E X. destruct (DC q) as [C|C]; [right|left; congruence]. destruct (CH q C) as (t & t0 & E0 & E' & X' & _ & SC & AL). rewrite E in E'. injection E' as <-. exists t. split; auto. split; auto. split; auto.
    intros d a V G. assert (V0 : ctxValues camel r t a) by (apply (ctx_same camel r' r) in V; [unfold ctxValues in *; now rewrite SC in V|auto]). destruct (AL d a V0 G) as (A & B & D0). cbn zeta in *.
    split; [|split]; intros; symmetry; auto. }
  assert (F : forall m, follows (decStruct camel r m s fs0 (contextsOf s args) data) (fun k _ => decStruct camel r' k s fs0 (contextsOf s args) data)).
  { intros m. apply (half_top camel os os' fs fs' r r' p p' PK PK' CN CX H1); auto. eapply (str_check camel os fs r p PK); eauto. }
  assert (F' : forall m, follows (decStruct camel r' m s fs0 (contextsOf s args) data) (fun k _ => decStruct camel r k s fs0 (contextsOf s args) data)).
  { intros m. apply (half_top camel os' os fs' fs r' r p' p PK' PK (fun x => eq_sym (CN x)) (fun x => eq_sym (CX x)) H2); auto. eapply (str_check camel os' fs' r' p' PK'); eauto. }
  assert (FO : forall o, o <> OutOfFuel -> (exists m, decStruct camel r m s fs0 (contextsOf s args) data = o) <-> (exists m, decStruct camel r' m s fs0 (contextsOf s args) data = o)).
  { intros o N. split; intros [m E]; [destruct (F m) as [X|[k X]]|destruct (F' m) as [X|[k X]]]; try congruence; exists k; rewrite <- E; exact (X k k (Nat.le_refl _) (Nat.le_refl _)). }
  split; [|split; [|split]].
  - intros f c. rewrite (parses_dec camel os fs r p PK _ _ _ _ VC), (parses_dec camel os' fs' r' p' PK' _ _ _ _ VC'). apply FO. discriminate.
  - intros e. rewrite (fails_dec camel os fs r p PK _ _ _ _ VC), (fails_dec camel os' fs' r' p' PK' _ _ _ _ VC'). apply FO. discriminate.
  - intros e. rewrite (panics_dec camel os fs r p PK _ _ _ _ VC), (panics_dec camel os' fs' r' p' PK' _ _ _ _ VC'). apply FO. discriminate.
  - split; intros H n.
    + apply (run_fuel camel os' fs' r' p' PK' _ _ _ _ VC'). destruct (F' n) as [X|[k X]]; auto. rewrite <- (X k k (Nat.le_refl _) (Nat.le_refl _)). apply (run_fuel camel os fs r p PK _ _ _ _ VC). apply H.
    + apply (run_fuel camel os fs r p PK _ _ _ _ VC). destruct (F n) as [X|[k X]]; auto. rewrite <- (X k k (Nat.le_refl _) (Nat.le_refl _)). apply (run_fuel camel os' fs' r' p' PK' _ _ _ _ VC'). apply H.
Qed.
Print Assumptions C104_nested.

(** [struct in { u8 x; u8 k; }] and [struct in { char x; u8 k IN [0..255]; }], in
    [struct out { u8 n; struct in a[n]; struct in b; }]. *)
Definition moIn := mkStruct "in" [] (Some [u8 "x"; u8 "k"]).
Definition moIn' := mkStruct "in" [] (Some [MField "x" TChar; MField "k" (TInt 8 (Some [mkRange (ILit 0) (Some (ILit 255))]))]).
Definition moOut := mkStruct "out" [] (Some [u8 "n"; MField "a" (TVar (TStruct "in") (Some (LRef (local "n")))); MField "b" (TStruct "in")]).
Notation mo := (one [moIn; moOut]).
Notation mo' := (one [moIn'; moOut]).
Lemma mo_package : package camelX osX mo (theRes mo) (theProg mo).
Proof. apply package_of; vm_compute; reflexivity. Qed.
Lemma mo_package' : package camelX osX mo' (theRes mo') (theProg mo').
Proof. apply package_of; vm_compute; reflexivity. Qed.
Lemma mo_struct : forall nm, Struct (theRes mo) nm = alookup nm [("in", moIn); ("out", moOut)].
Proof. intros nm. vm_compute. reflexivity. Qed.
Lemma mo_struct' : forall nm, Struct (theRes mo') nm = alookup nm [("in", moIn'); ("out", moOut)].
Proof. intros nm. vm_compute. reflexivity. Qed.
Lemma mo_byte : forall b l, is_byte b -> inList (theRes mo') (be (firstn (Z.to_nat (8 / 8)) (b :: l))) [mkRange (ILit 0) (Some (ILit 255))] = true.
Proof. intros b l B. unfold is_byte in B. change (firstn (Z.to_nat (8 / 8)) (b :: l)) with [b]. unfold inList, inRange. cbn [existsb range_bounds rlow rhigh int_value]. cbn [be]. rewrite orb_false_r. cbn. lia. Qed.
Lemma mo_dec : forall n c, all_bytes c -> decStruct camelX (theRes mo) n moIn (blank camelX (Constant (theRes mo)) moIn) [] c = decStruct camelX (theRes mo') n moIn' (blank camelX (Constant (theRes mo')) moIn') [] c.
Proof.
  intros [|n] c A; [reflexivity|]. change (blank camelX (Constant (theRes mo')) moIn') with (blank camelX (Constant (theRes mo)) moIn). set (b0 := blank camelX (Constant (theRes mo)) moIn).
  cbn [decStruct members_of moIn moIn' smembers u8 decMembers decMember decType decBase]. unfold decInt. change (8 / 8) with 1. destruct c as [|x [|y c]]; [reflexivity|reflexivity|].
  replace (blen (x :: y :: c) <? 1) with false by (unfold blen; cbn [List.length]; lia). cbn [bind]. change (skipn (Z.to_nat 1) (x :: y :: c)) with (y :: c).
  replace (blen (y :: c) <? 1) with false by (unfold blen; cbn [List.length]; lia). pose proof (mo_byte y c) as M. change (8 / 8) with 1 in M. rewrite M; [reflexivity|]. inversion A as [|? ? _ A2]; subst. now inversion A2.
Qed.
Example C104_case : package camelX osX mo (theRes mo) (theProg mo) /\ package camelX osX mo' (theRes mo') (theProg mo') /\
  (forall x, Constant (theRes mo) x = Constant (theRes mo') x) /\ (forall x, Context (theRes mo) x = Context (theRes mo') x) /\
  (forall nm, nm = "in" \/ Struct (theRes mo) nm = Struct (theRes mo') nm) /\ Struct (theRes mo) "in" = Some moIn /\ Struct (theRes mo') "in" = Some moIn' /\
  alike camelX (theRes mo) (theRes mo') (theProg mo) (theProg mo') moIn moIn' /\ Struct (theRes mo) "out" = Some moOut /\
  parses camelX (theProg mo') moOut (blank camelX (Constant (theRes mo')) moOut) [1; 2; 3; 4; 5; 6] []
    [("N", VInt 1); ("A", VList [VStruct "In" [("X", VInt 2); ("K", VInt 3)]]); ("B", VStruct "In" [("X", VInt 4); ("K", VInt 5)])] [6].
Proof.
  split; [exact mo_package|]. split; [exact mo_package'|]. split; [intros x; vm_compute; reflexivity|]. split; [intros x; vm_compute; reflexivity|].
  split; [intros nm; rewrite mo_struct, mo_struct'; cbn [alookup]; destruct (String.eqb_spec nm "in"); [now left|now right]|].
  split; [vm_compute; reflexivity|]. split; [vm_compute; reflexivity|]. split; [|split; [vm_compute; reflexivity|]].
  - intros data args CV GB. unfold ctxValues in CV. cbn [moIn scontexts] in CV. inversion CV; subst.
    assert (V : validCall camelX mo (theRes mo) moIn (blank camelX (Constant (theRes mo)) moIn) data []).
    { apply (fresh_call [moIn; moOut] moIn); [vm_compute; reflexivity|now left|reflexivity|reflexivity|exact GB]. }
    assert (V' : validCall camelX mo' (theRes mo') moIn' (blank camelX (Constant (theRes mo')) moIn') data []).
    { apply (fresh_call [moIn'; moOut] moIn'); [vm_compute; reflexivity|now left|reflexivity|reflexivity|exact GB]. }
    assert (E : forall n, decStruct camelX (theRes mo) n moIn (blank camelX (Constant (theRes mo)) moIn) (contextsOf moIn []) data = decStruct camelX (theRes mo') n moIn' (blank camelX (Constant (theRes mo')) moIn') (contextsOf moIn' []) data).
    { intros n. apply mo_dec. apply GB. }
    cbn zeta. split; [|split]; intros.
    + rewrite (parses_dec camelX osX _ _ _ mo_package _ _ _ _ V), (parses_dec camelX osX _ _ _ mo_package' _ _ _ _ V'). split; intros [n H]; exists n; [now rewrite <- E|now rewrite E].
    + rewrite (fails_dec camelX osX _ _ _ mo_package _ _ _ _ V), (fails_dec camelX osX _ _ _ mo_package' _ _ _ _ V'). split; intros [n H]; exists n; [now rewrite <- E|now rewrite E].
    + rewrite (panics_dec camelX osX _ _ _ mo_package _ _ _ _ V), (panics_dec camelX osX _ _ _ mo_package' _ _ _ _ V'). split; intros [n H]; exists n; [now rewrite <- E|now rewrite E].
  - assert (G : goBytes [1; 2; 3; 4; 5; 6]) by (apply bytes_ok; vm_compute; reflexivity).
    assert (V' : validCall camelX mo' (theRes mo') moOut (blank camelX (Constant (theRes mo')) moOut) [1; 2; 3; 4; 5; 6] []).
    { apply (fresh_call [moIn'; moOut] moOut); [vm_compute; reflexivity|right; now left|reflexivity|reflexivity|exact G]. }
    apply (parses_dec camelX osX _ _ _ mo_package' _ _ _ _ V'). exists 9%nat. vm_compute. reflexivity.
Qed.
