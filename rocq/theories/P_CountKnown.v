(** Property C107: arrays whose count is known. *)
From Coq Require Import ZArith String List Bool Lia ZifyBool ZifyNat.
From Verif Require Import Base Ast IntervalsModel InspectModel InspectSpec InspectProofs GoLang GenModel GenDecode GenCheck GenSim GenSimBody GenSimProg GenMono WireSpec WireProofs WireComplete WireFacts GenTerm FwdProofs
  PackageSpec PackageProofs PackageFacts PackageMore GenExamples GenWitness ReachSpec ReachProofs UnrollProofs P_Unroll PickProofs.
Import ListNotations.
Open Scope string_scope.
Open Scope list_scope.
Open Scope Z_scope.

Section Count.
Variable camel : string -> string.
Variable os : nat -> orders.
Variable fs : list file.
Variable r : resolver.
Variable p : program.
Hypothesis PK : package camel os fs r p.
Variables s s' : struct.
Variables ms1 ms2 : list member.
Variable nm : string.
Variable b : type.
Variable f : idref.
Variable i : integer.
Variable v : Z.
Hypothesis DS : defines fs s.
Hypothesis DS' : defines fs s'.
Hypothesis EC : scontexts s' = scontexts s.
Hypothesis EM : members_of s = ms1 ++ MField nm (TVar b (Some (LRef f))) :: ms2.
Hypothesis EM' : members_of s' = ms1 ++ MField nm (TFixed b i) :: ms2.
Hypothesis IV : int_value (Constant r) i = Some v.
Hypothesis FITS : v * cell b <= 2 ^ 48.
Variables new new' : amap value.
Variable data : bytes.
Variable args : list value.
Hypothesis VC : validCall camel fs r s new data args.
Hypothesis VC' : validCall camel fs r s' new' data args.
Hypothesis AG : forall g, g <> camel nm -> alookup g new = alookup g new'.
Notation cv := (Constant r).
Notation F := (flat_map allFields (members_of s)).
Notation F' := (flat_map allFields (members_of s')).
Notation key := (fun f : string * type => camel (fst f)).
Notation cenv := (contextsOf s args).
Definition Xn (g : string) : Prop := g = camel nm.

Lemma co_check : checkStruct camel r s = true.
Proof. eapply pk_check; eauto. now apply (defines_in fs). Qed.
Lemma co_check' : checkStruct camel r s' = true.
Proof. eapply pk_check; eauto. now apply (defines_in fs). Qed.
Lemma co_nodup : NoDup (map key F).
Proof. eapply struct_nodup; eauto. now apply (defines_in fs). Qed.
Lemma co_nodup' : NoDup (map key F').
Proof. eapply struct_nodup; eauto. now apply (defines_in fs). Qed.
Lemma co_inj : forall f g : string * type, In f F -> In g F -> key f = key g -> f = g.
Proof.
  pose proof co_nodup as ND. revert ND. generalize F. induction l as [|h l IH]; intros ND x y I J E; [destruct I|].
  cbn [map] in ND. inversion ND as [|? ? N D]; subst. destruct I as [->|I], J as [->|J]; auto.
  - exfalso. apply N. rewrite E. now apply (in_map key).
  - exfalso. apply N. rewrite <- E. now apply (in_map key).
Qed.
Lemma co_keys : keys camel (members_of s) = keys camel ms1 ++ camel nm :: keys camel ms2.
Proof. unfold keys. rewrite EM, flat_map_app, map_app. reflexivity. Qed.
Lemma co_split : NoDup (keys camel ms1) /\ ~ In (camel nm) (keys camel ms1) /\ ~ In (camel nm) (keys camel ms2) /\ forall g, In g (keys camel ms1) -> ~ In g (keys camel ms2).
Proof.
  pose proof co_nodup as ND. change (NoDup (keys camel (members_of s))) in ND. rewrite co_keys in ND. split; [now apply NoDup_app_l in ND|]. split; [|split].
  - intros I. apply (NoDup_app_disj _ _ _ ND I). now left.
  - apply NoDup_app_r in ND. now inversion ND.
  - intros g I J. apply (NoDup_app_disj _ _ _ ND I). now right.
Qed.
Lemma co_count : 0 <= v < two63 /\ integerOf r i = Ok v.
Proof.
  pose proof (checked_members camel r s' co_check') as CM. rewrite EM' in CM. apply known_before in CM. cbn [checkMember checkType] in CM.
  apply andb_true_iff in CM as [_ G]. unfold goodCount in G. rewrite IV in G. split; [lia|]. now apply integerOf_value.
Qed.
Lemma co_base : exists g, tipe camel r b = Ok g /\ gsize g = cell b.
Proof.
  pose proof (checked_members camel r s' co_check') as CM. rewrite EM' in CM. apply known_before in CM. cbn [checkMember checkType] in CM. apply andb_true_iff in CM as [CB _].
  assert (CT : checkType r (scontexts s') [] b = true) by (destruct b; auto; discriminate).
  destruct (tipe_ok camel r b _ _ CT) as [g G]. exists g. split; auto. now destruct (cell_size camel r _ b g CB G).
Qed.
(** Counts in the struct itself are members before the array. *)
Lemma co_before : rscope f = "" -> exists t, In (rname f, t) (flat_map allFields ms1).
Proof.
  intros E. pose proof (checked_members camel r s co_check) as CM. rewrite EM in CM. apply known_before in CM. cbn [checkMember checkType] in CM.
  apply andb_true_iff in CM as [_ CM]. unfold refWidth in CM. rewrite E in CM. cbn [String.eqb] in CM.
  destruct (alookup (rname f) (fold_left addKnown ms1 [])) as [z|] eqn:K; [|discriminate]. destruct (known_in _ _ _ _ K) as [X|X]; auto. discriminate X.
Qed.
Lemma co_own : rscope f = "" -> In (camel (rname f)) (keys camel ms1).
Proof. intros E. destruct (co_before E) as [t I]. exact (in_map key _ _ I). Qed.
Lemma co_array : forall dcall n (d : bytes) a a' c, refers camel cenv a f v ->
  decType camel r dcall n cenv (blen d) a (TVar b (Some (LRef f))) c = decType camel r dcall n cenv (blen d) a' (TFixed b i) c.
Proof.
  intros dcall n d a a' c R. cbn [decType]. rewrite (proj2 (refVal_refers camel cenv a f v) R). destruct co_count as [B ->]. destruct co_base as (g & -> & GS). cbn [bind].
  rewrite s64_id, GS by lia. change (2 ^ 48) with maxAlloc in FITS. replace ((v <? 0) || (maxAlloc <? v * cell b)) with false by lia. reflexivity.
Qed.
Lemma co_free : Forall (free camel Xn) ms1.
Proof.
  apply Forall_forall. intros m I. destruct co_split as (_ & N & _). split.
  - intros x t J E. apply N. rewrite <- E. apply (in_map key _ (x, t)). apply in_flat_map. eauto.
  - intros g J E X. unfold Xn in X. assert (IM : In m (members_of s)) by (rewrite EM; apply in_or_app; now left).
    destruct (struct_uses camel r s co_check m g IM J E) as (sz & cst & K).
    assert (IN : In (nm, TVar b (Some (LRef f))) F) by (rewrite EM, flat_map_app; apply in_or_app; right; now left).
    pose proof (co_inj _ _ K IN X). discriminate.
Qed.
Lemma co_here : alookup (camel nm) new <> None /\ alookup (camel nm) new' <> None.
Proof.
  assert (IN : In (nm, TVar b (Some (LRef f))) F) by (rewrite EM, flat_map_app; apply in_or_app; right; now left).
  assert (IN' : In (nm, TFixed b i) F') by (rewrite EM', flat_map_app; apply in_or_app; right; now left).
  destruct (goStruct_lookup camel r s new (vc_recv _ _ _ _ _ _ _ VC) co_nodup _ _ IN) as (x & -> & _).
  destruct (goStruct_lookup camel r s' new' (vc_recv _ _ _ _ _ _ _ VC') co_nodup' _ _ IN') as (x' & -> & _). split; discriminate.
Qed.
Definition nowhere (g : string) : Prop := False.
Lemma free_nowhere : forall m, free camel nowhere m.
Proof. intros m. split; intros; intros []. Qed.
(** Equal outcomes, and equal fields. *)
Definition equal (o o' : outcome (amap value * bytes)) : Prop :=
  match o, o' with
  | Ok (a, c), Ok (a', c') => c = c' /\ forall g, alookup g a = alookup g a'
  | Err e, Err e' => e = e'
  | Panic e, Panic e' => e = e'
  | OutOfFuel, OutOfFuel => True
  | _, _ => False
  end.
Lemma co_step : forall n,
  (forall a c, decMembers camel r (decCall camel r n) n cenv (blen data) ms1 new data = Ok (a, c) -> refers camel cenv a f v) ->
  equal (decStruct camel r (S n) s new cenv data) (decStruct camel r (S n) s' new' (contextsOf s' args) data).
Proof.
  intros n R. cbn [decStruct]. replace (contextsOf s' args) with cenv by (unfold contextsOf; now rewrite EC).
  rewrite EM, EM', !members_app.
  pose proof (members_like camel r Xn (decCall camel r n) n cenv data ms1 co_free new new' data AG) as L1.
  destruct (decMembers camel r (decCall camel r n) n cenv (blen data) ms1 new data) as [[a c]|e|m|], (decMembers camel r (decCall camel r n) n cenv (blen data) ms1 new' data) as [[a' c']|e'|m'|];
    cbn [like] in L1; try contradiction; try (cbn [bind equal]; auto; fail).
  specialize (R a c eq_refl). cbn [bind]. destruct L1 as (-> & A & KE). cbn [decMembers decMember]. rewrite (co_array _ _ _ a a' c' R).
  destruct (decType camel r (decCall camel r n) n cenv (blen data) a' (TFixed b i) c') as [[x c1]| | |]; cbn [bind equal]; auto.
  assert (E : agreeX nowhere (assign (camel nm) x a) (assign (camel nm) x a')).
  { intros g _. rewrite !alookup_assign. destruct (KE (camel nm) eq_refl) as [-> ->]. destruct co_here as [H H'].
    destruct (String.eqb_spec g (camel nm)) as [->|N]; [|now apply A]. destruct (alookup (camel nm) new), (alookup (camel nm) new'); congruence. }
  pose proof (members_like camel r nowhere (decCall camel r n) n cenv data ms2 (proj2 (Forall_forall _ _) (fun m _ => free_nowhere m)) _ _ c1 E) as L2.
  destruct (decMembers camel r (decCall camel r n) n cenv (blen data) ms2 (assign (camel nm) x a) c1) as [[a2 c2]| | |],
    (decMembers camel r (decCall camel r n) n cenv (blen data) ms2 (assign (camel nm) x a') c1) as [[a2' c2']| | |]; cbn [like equal] in *; auto.
  destruct L2 as (-> & A2 & _). split; [reflexivity|]. intros g. apply A2. intros [].
Qed.
Lemma co_tag : forall n a c o c1, decMembers camel r (decCall camel r n) n cenv (blen data) ms1 new data = Ok (a, c) ->
  decStruct camel r (S n) s new cenv data = Ok (o, c1) -> refers camel cenv o f v -> refers camel cenv a f v.
Proof.
  intros n a c o c1 H1 H R. cbn [decStruct] in H. rewrite EM, members_app, H1 in H. cbn [bind] in H. revert R. apply refers_agree. intros E.
  destruct co_split as (_ & N1 & N2 & D). pose proof (co_own E) as I.
  apply (members_keep camel r (decCall camel r n) n cenv data _ _ _ _ _ H). unfold keys. cbn [flat_map allFields app map fst]. intros [J|J]; [rewrite <- J in I; contradiction|]. exact (D _ I J).
Qed.
Lemma co_tag' : forall n a' c o c1, decMembers camel r (decCall camel r n) n cenv (blen data) ms1 new' data = Ok (a', c) ->
  decStruct camel r (S n) s' new' (contextsOf s' args) data = Ok (o, c1) -> refers camel cenv o f v -> refers camel cenv a' f v.
Proof.
  intros n a' c o c1 H1 H R. cbn [decStruct] in H. replace (contextsOf s' args) with cenv in H by (unfold contextsOf; now rewrite EC).
  rewrite EM', members_app, H1 in H. cbn [bind] in H. revert R. apply refers_agree. intros E.
  destruct co_split as (_ & N1 & N2 & D). pose proof (co_own E) as I.
  apply (members_keep camel r (decCall camel r n) n cenv data _ _ _ _ _ H). unfold keys. cbn [flat_map allFields app map fst]. intros [J|J]; [rewrite <- J in I; contradiction|]. exact (D _ I J).
Qed.
Lemma co_refers : forall a a', (forall g, g <> camel nm -> alookup g a = alookup g a') -> refers camel cenv a f v <-> refers camel cenv a' f v.
Proof.
  intros a a' A. assert (E : rscope f = "" -> alookup (camel (rname f)) a = alookup (camel (rname f)) a').
  { intros E. apply A. intros X. destruct co_split as (_ & N & _). apply N. rewrite <- X. now apply co_own. }
  split; apply refers_agree; auto. intros X. symmetry. auto.
Qed.

Theorem count_parses :
  (forall fs1 rest, parses camel p s new data args fs1 rest -> refers camel cenv fs1 f v ->
     exists fs1', parses camel p s' new' data args fs1' rest /\ refers camel cenv fs1' f v /\ forall g, alookup g fs1 = alookup g fs1') /\
  (forall fs1' rest, parses camel p s' new' data args fs1' rest -> refers camel cenv fs1' f v ->
     exists fs1, parses camel p s new data args fs1 rest /\ refers camel cenv fs1 f v /\ forall g, alookup g fs1 = alookup g fs1').
Proof.
  split; intros o rest H R.
  - apply (parses_dec camel os fs r p PK _ _ _ _ VC) in H as [[|n] H]; [discriminate H|].
    pose proof (co_step n (fun a c E => co_tag n a c o rest E H R)) as L. rewrite H in L.
    destruct (decStruct camel r (S n) s' new' (contextsOf s' args) data) as [[o' c']| | |] eqn:E; cbn [equal] in L; try contradiction. destruct L as (<- & A).
    exists o'. split; [apply (parses_dec camel os fs r p PK _ _ _ _ VC'); eauto|]. split; [apply (co_refers o o'); auto|auto].
  - apply (parses_dec camel os fs r p PK _ _ _ _ VC') in H as [[|n] H]; [discriminate H|].
    assert (R1 : forall a c, decMembers camel r (decCall camel r n) n cenv (blen data) ms1 new data = Ok (a, c) -> refers camel cenv a f v).
    { intros a c E. pose proof (members_like camel r Xn (decCall camel r n) n cenv data ms1 co_free new new' data AG) as L1. rewrite E in L1.
      destruct (decMembers camel r (decCall camel r n) n cenv (blen data) ms1 new' data) as [[a' c']| | |] eqn:E'; cbn [like] in L1; try contradiction. destruct L1 as (-> & A & _).
      apply (co_refers a a' A). exact (co_tag' n a' c' o rest E' H R). }
    pose proof (co_step n R1) as L. rewrite H in L.
    destruct (decStruct camel r (S n) s new cenv data) as [[o' c']| | |] eqn:E; cbn [equal] in L; try contradiction. destruct L as (-> & A).
    exists o'. split; [apply (parses_dec camel os fs r p PK _ _ _ _ VC); eauto|]. split; [apply (co_refers o' o); auto|auto].
Qed.

Hypothesis ONLY : (rscope f = "" /\ exists sz l, In (MField (rname f) (TInt sz (Some l))) ms1 /\ forall z, in_list cv l z -> z = v) \/
  (rscope f <> "" /\ refers camel cenv [] f v).
Lemma co_only : forall n a c, decMembers camel r (decCall camel r n) n cenv (blen data) ms1 new data = Ok (a, c) -> refers camel cenv a f v.
Proof.
  intros n a c H. destruct ONLY as [(E & sz & l & I & U)|[E R]].
  - assert (IN : In (rname f, TInt sz (Some l)) F) by (rewrite EM, flat_map_app; apply in_or_app; left; apply in_flat_map; eexists; split; [exact I|now left]).
    destruct (integer_held camel r (decCall camel r n) n cenv data ms1 (rname f) sz l new data a c I) as (x & A & IL); auto.
    + apply co_split.
    + destruct (goStruct_lookup camel r s new (vc_recv _ _ _ _ _ _ _ VC) co_nodup _ _ IN) as (x & -> & _). discriminate.
    + apply inList_spec in IL. unfold refers. rewrite E. cbn [String.eqb]. rewrite A. now rewrite (U x IL).
  - revert R. apply refers_agree. intros X. contradiction.
Qed.
Theorem count_same :
  (forall fs1 rest, parses camel p s new data args fs1 rest -> exists fs1', parses camel p s' new' data args fs1' rest /\ forall g, alookup g fs1 = alookup g fs1') /\
  (forall fs1' rest, parses camel p s' new' data args fs1' rest -> exists fs1, parses camel p s new data args fs1 rest /\ forall g, alookup g fs1 = alookup g fs1') /\
  (forall e, fails camel p s new data args e <-> fails camel p s' new' data args e) /\
  (forall m, panics camel p s new data args m <-> panics camel p s' new' data args m) /\
  (neverEnds camel p s new data args <-> neverEnds camel p s' new' data args).
Proof.
  assert (ST : forall n, equal (decStruct camel r n s new cenv data) (decStruct camel r n s' new' (contextsOf s' args) data)).
  { intros [|n]; [exact I|]. apply co_step. apply co_only. }
  split; [|split; [|split; [|split]]].
  - intros o rest H. apply (parses_dec camel os fs r p PK _ _ _ _ VC) in H as [n H]. specialize (ST n). rewrite H in ST.
    destruct (decStruct camel r n s' new' (contextsOf s' args) data) as [[o' c']| | |] eqn:E; cbn [equal] in ST; try contradiction. destruct ST as (<- & A).
    exists o'. split; [apply (parses_dec camel os fs r p PK _ _ _ _ VC'); eauto|auto].
  - intros o' rest H. apply (parses_dec camel os fs r p PK _ _ _ _ VC') in H as [n H]. specialize (ST n). rewrite H in ST.
    destruct (decStruct camel r n s new cenv data) as [[o c]| | |] eqn:E; cbn [equal] in ST; try contradiction. destruct ST as (-> & A).
    exists o. split; [apply (parses_dec camel os fs r p PK _ _ _ _ VC); eauto|auto].
  - intros e. rewrite (fails_dec camel os fs r p PK _ _ _ _ VC), (fails_dec camel os fs r p PK _ _ _ _ VC'). split; intros [n H]; exists n; specialize (ST n); rewrite H in ST;
    [destruct (decStruct camel r n s' new' (contextsOf s' args) data) as [[]| | |]|destruct (decStruct camel r n s new cenv data) as [[]| | |]]; cbn [equal] in ST; try contradiction; congruence.
  - intros e. rewrite (panics_dec camel os fs r p PK _ _ _ _ VC), (panics_dec camel os fs r p PK _ _ _ _ VC'). split; intros [n H]; exists n; specialize (ST n); rewrite H in ST;
    [destruct (decStruct camel r n s' new' (contextsOf s' args) data) as [[]| | |]|destruct (decStruct camel r n s new cenv data) as [[]| | |]]; cbn [equal] in ST; try contradiction; congruence.
  - unfold neverEnds. split; intros H n.
    + apply (run_fuel camel os fs r p PK _ _ _ _ VC'). specialize (ST n). rewrite (proj1 (run_fuel camel os fs r p PK _ _ _ _ VC n) (H n)) in ST.
      destruct (decStruct camel r n s' new' (contextsOf s' args) data) as [[]| | |]; cbn [equal] in ST; try contradiction; reflexivity.
    + apply (run_fuel camel os fs r p PK _ _ _ _ VC). specialize (ST n). rewrite (proj1 (run_fuel camel os fs r p PK _ _ _ _ VC' n) (H n)) in ST.
      destruct (decStruct camel r n s new cenv data) as [[]| | |]; cbn [equal] in ST; try contradiction; reflexivity.
Qed.
End Count.

(** C107.  Let one struct have an array with the count [f] where another has an array with the
    constant count [v], whose elements fit in the largest object that can be allocated.  Let the
    receivers agree but for the array, which has a type of its own in each of them.  Then the data
    that one of them accepts with [v] in the count are those that the other accepts with [v] in it,
    with the same rest, and all fields have the same values, the elements of the array included. *)
Theorem C107_counted : forall camel os fs r p, package camel os fs r p ->
  forall s s' ms1 ms2 nm b f i v, defines fs s -> defines fs s' -> scontexts s' = scontexts s ->
  members_of s = ms1 ++ MField nm (TVar b (Some (LRef f))) :: ms2 -> members_of s' = ms1 ++ MField nm (TFixed b i) :: ms2 ->
  int_value (Constant r) i = Some v -> v * cell b <= 2 ^ 48 ->
  forall fs0 fs0' data args, ctxValues camel r s args -> goStruct camel r s fs0 -> goStruct camel r s' fs0' -> goBytes data ->
  (forall g, g <> camel nm -> alookup g fs0 = alookup g fs0') ->
  let counted a := refers camel (contextsOf s args) a f v in
  (forall fs1 rest, parses camel p s fs0 data args fs1 rest -> counted fs1 ->
     exists fs1', parses camel p s' fs0' data args fs1' rest /\ counted fs1' /\ forall g, alookup g fs1 = alookup g fs1') /\
  (forall fs1' rest, parses camel p s' fs0' data args fs1' rest -> counted fs1' ->
     exists fs1, parses camel p s fs0 data args fs1 rest /\ counted fs1 /\ forall g, alookup g fs1 = alookup g fs1').
Proof.
  intros camel os fs r p PK s s' ms1 ms2 nm b f i v DS DS' EC EM EM' IV FITS fs0 fs0' data args VA G G' VD AG counted.
  assert (VA' : ctxValues camel r s' args) by (unfold ctxValues in *; now rewrite EC).
  exact (count_parses camel os fs r p PK s s' ms1 ms2 nm b f i v DS DS' EC EM EM' IV FITS fs0 fs0' data args (Build_validCall _ _ _ _ _ _ _ DS VA G VD) (Build_validCall _ _ _ _ _ _ _ DS' VA' G' VD) AG).
Qed.
Print Assumptions C107_counted.

(** If moreover the count can be nothing but [v], because it is a field of a context that has [v] in
    it or an earlier integer whose constraint [v] alone meets, then the two structs parse alike in
    every respect. *)
Theorem C107_known : forall camel os fs r p, package camel os fs r p ->
  forall s s' ms1 ms2 nm b f i v, defines fs s -> defines fs s' -> scontexts s' = scontexts s ->
  members_of s = ms1 ++ MField nm (TVar b (Some (LRef f))) :: ms2 -> members_of s' = ms1 ++ MField nm (TFixed b i) :: ms2 ->
  int_value (Constant r) i = Some v -> v * cell b <= 2 ^ 48 ->
  forall fs0 fs0' data args, ctxValues camel r s args -> goStruct camel r s fs0 -> goStruct camel r s' fs0' -> goBytes data ->
  (forall g, g <> camel nm -> alookup g fs0 = alookup g fs0') ->
  (rscope f = "" /\ exists sz l, In (MField (rname f) (TInt sz (Some l))) ms1 /\ forall z, in_list (Constant r) l z -> z = v) \/
  (rscope f <> "" /\ refers camel (contextsOf s args) [] f v) ->
  (forall fs1 rest, parses camel p s fs0 data args fs1 rest -> exists fs1', parses camel p s' fs0' data args fs1' rest /\ forall g, alookup g fs1 = alookup g fs1') /\
  (forall fs1' rest, parses camel p s' fs0' data args fs1' rest -> exists fs1, parses camel p s fs0 data args fs1 rest /\ forall g, alookup g fs1 = alookup g fs1') /\
  (forall e, fails camel p s fs0 data args e <-> fails camel p s' fs0' data args e) /\
  (forall m, panics camel p s fs0 data args m <-> panics camel p s' fs0' data args m) /\
  (neverEnds camel p s fs0 data args <-> neverEnds camel p s' fs0' data args).
Proof.
  intros camel os fs r p PK s s' ms1 ms2 nm b f i v DS DS' EC EM EM' IV FITS fs0 fs0' data args VA G G' VD AG ONLY.
  assert (VA' : ctxValues camel r s' args) by (unfold ctxValues in *; now rewrite EC).
  exact (count_same camel os fs r p PK s s' ms1 ms2 nm b f i v DS DS' EC EM EM' IV FITS fs0 fs0' data args (Build_validCall _ _ _ _ _ _ _ DS VA G VD) (Build_validCall _ _ _ _ _ _ _ DS' VA' G' VD) AG ONLY).
Qed.
Print Assumptions C107_known.

(** [struct var { u8 k IN [2]; u16 a[k]; u8 z; }] and [struct fix { u8 k IN [2]; u16 a[2]; u8 z; }]. *)
Definition kTwo := MField "k" (TInt 8 (Some [mkRange (ILit 2) None])).
Definition varS := mkStruct "var" [] (Some [kTwo; MField "a" (TVar (TInt 16 None) (Some (LRef (local "k")))); u8 "z"]).
Definition fixS := mkStruct "fix" [] (Some [kTwo; MField "a" (TFixed (TInt 16 None) (ILit 2)); u8 "z"]).
Notation atC := (one [varS; fixS]).
Lemma count_package : package camelX osX atC (theRes atC) (theProg atC).
Proof. apply package_of; vm_compute; reflexivity. Qed.
Example C107_case : package camelX osX atC (theRes atC) (theProg atC) /\ defines atC varS /\ defines atC fixS /\
  members_of varS = [kTwo] ++ MField "a" (TVar (TInt 16 None) (Some (LRef (local "k")))) :: [u8 "z"] /\ members_of fixS = [kTwo] ++ MField "a" (TFixed (TInt 16 None) (ILit 2)) :: [u8 "z"] /\
  2 * cell (TInt 16 None) <= 2 ^ 48 /\ (forall z, in_list (Constant (theRes atC)) [mkRange (ILit 2) None] z -> z = 2) /\
  (forall g, g <> camelX "a" -> alookup g (blank camelX (Constant (theRes atC)) varS) = alookup g (blank camelX (Constant (theRes atC)) fixS)) /\
  parses camelX (theProg atC) varS (blank camelX (Constant (theRes atC)) varS) [2; 1; 3; 0; 4; 9; 5] [] [("K", VInt 2); ("A", VList [VInt 259; VInt 4]); ("Z", VInt 9)] [5] /\
  parses camelX (theProg atC) fixS (blank camelX (Constant (theRes atC)) fixS) [2; 1; 3; 0; 4; 9; 5] [] [("K", VInt 2); ("A", VList [VInt 259; VInt 4]); ("Z", VInt 9)] [5].
Proof.
  assert (G : goBytes [2; 1; 3; 0; 4; 9; 5]) by (apply bytes_ok; vm_compute; reflexivity).
  assert (V : forall s, In s [varS; fixS] -> validCall camelX atC (theRes atC) s (blank camelX (Constant (theRes atC)) s) [2; 1; 3; 0; 4; 9; 5] []).
  { intros s I. apply (fresh_call [varS; fixS] s); [vm_compute; reflexivity|exact I|destruct I as [<-|[<-|[]]]; reflexivity|destruct I as [<-|[<-|[]]]; reflexivity|exact G]. }
  split; [exact count_package|]. split; [apply (V varS); cbn; auto|]. split; [apply (V fixS); cbn; auto|]. split; [reflexivity|]. split; [reflexivity|]. split; [cbn; lia|]. split; [|split; [|split]].
  - intros z H. apply inList_spec in H. cbn in H. lia.
  - intros g N. cbn [blank flat_map members_of varS fixS smembers kTwo u8 allFields app map fst snd alookup]. destruct (String.eqb g (camelX "k")); auto. destruct (String.eqb_spec g (camelX "a")); [contradiction|]. reflexivity.
  - apply (parses_dec camelX osX _ _ _ count_package _ _ _ _ (V varS (or_introl eq_refl))). exists 9%nat. vm_compute. reflexivity.
  - apply (parses_dec camelX osX _ _ _ count_package _ _ _ _ (V fixS (or_intror (or_introl eq_refl)))). exists 9%nat. vm_compute. reflexivity.
Qed.
