(** Property C111: counts that contexts hold are numbers, also inside of unions. *)
From Coq Require Import ZArith String List Bool Lia ZifyBool ZifyNat.
From Verif Require Import Base Ast IntervalsModel InspectModel InspectSpec InspectProofs GoLang GenModel GenDecode GenCheck GenSim GenSimBody GenSimProg GenMono WireSpec WireProofs WireComplete WireFacts GenTerm FwdProofs
  PackageSpec PackageProofs PackageFacts PackageMore GenExamples GenWitness IndepSpec UnrollProofs P_Unroll WithinSpec.
From Verif Require Import ReachSpec ReachProofs P_Within.
Import ListNotations.
Open Scope string_scope.
Open Scope list_scope.
Open Scope Z_scope.

(** What is checked of the type of a field, wherever it is. *)
Lemma field_member : forall r ctxs m k nm t, checkMember r ctxs k m = true -> In (nm, t) (allFields m) -> exists k', checkType r ctxs k' t = true.
Proof.
  intros r ctxs. induction m as [x t0|u tag len cs IH| | |] using member_ind'; intros k nm t C I; cbn [allFields] in I; try (destruct I; fail).
  - destruct I as [I|[]]. injection I as -> ->. exists k. exact C.
  - cbn [checkMember] in C. apply andb_true_iff in C as [_ C3]. apply in_flat_map in I as ([l ms] & I & J). apply in_flat_map in J as (m & J & K).
    rewrite forallb_forall in C3. specialize (C3 _ I). cbn beta iota in C3. apply andb_true_iff in C3 as [_ C3].
    assert (C4 : checkMembers r ctxs k ms = true) by (rewrite <- C3; clear; revert k; induction ms as [|m ms IH]; intros k; cbn [checkMembers]; auto; now rewrite IH).
    apply in_split in J as (pa & pb & ->). destruct (checked_one _ _ _ _ _ _ C4) as [k' CK]. rewrite Forall_forall in IH. specialize (IH _ I). rewrite Forall_forall in IH.
    apply (IH m) with (k := k') (nm := nm); auto. apply in_or_app. right. now left.
Qed.
Lemma field_pos : forall camel r s, checkStruct camel r s = true -> forall nm t, In (nm, t) (flat_map allFields (members_of s)) -> exists k, checkType r (scontexts s) k t = true.
Proof.
  intros camel r s C nm t I. pose proof (checked_members camel r s C) as CM. apply in_flat_map in I as (m & I & J). apply in_split in I as (pa & pb & E). rewrite E in CM.
  destruct (checked_one _ _ _ _ _ _ CM) as [k CK]. eapply field_member; eauto.
Qed.

(** C111.  Let one struct have an array whose count is a field of a context where another has an
    array with the number [v] as its count, anywhere, also in cases of unions at any depth.  If the
    context has [v] in that field, and [v] elements can be allocated, then the two parse alike in
    every respect: the array has the same [v] elements in both, or is as it was in both. *)
Theorem C111_context : forall camel os fs r p, package camel os fs r p ->
  forall s s' ms1 m m' ms2 nm b f i v, defines fs s -> defines fs s' -> scontexts s' = scontexts s ->
  members_of s = ms1 ++ m :: ms2 -> members_of s' = ms1 ++ m' :: ms2 -> within (MField nm (TVar b (Some (LRef f)))) (MField nm (TFixed b i)) m m' ->
  int_value (Constant r) i = Some v -> v * cell b <= 2 ^ 48 -> rscope f <> "" ->
  forall fs0 fs0' data args, ctxValues camel r s args -> goStruct camel r s fs0 -> goStruct camel r s' fs0' -> goBytes data ->
  refers camel (contextsOf s args) [] f v ->
  (forall g, g <> camel nm -> alookup g fs0 = alookup g fs0') ->
  let same (a a' : amap value) := (forall g, g <> camel nm -> alookup g a = alookup g a') /\
    ((alookup (camel nm) a = alookup (camel nm) fs0 /\ alookup (camel nm) a' = alookup (camel nm) fs0') \/
     exists vs, blen vs = v /\ alookup (camel nm) a = Some (VList vs) /\ alookup (camel nm) a' = Some (VList vs)) in
  (forall fs1 rest, parses camel p s fs0 data args fs1 rest -> exists fs1', parses camel p s' fs0' data args fs1' rest /\ same fs1 fs1') /\
  (forall fs1' rest, parses camel p s' fs0' data args fs1' rest -> exists fs1, parses camel p s fs0 data args fs1 rest /\ same fs1 fs1') /\
  (forall e, fails camel p s fs0 data args e <-> fails camel p s' fs0' data args e) /\
  (forall m, panics camel p s fs0 data args m <-> panics camel p s' fs0' data args m) /\
  (neverEnds camel p s fs0 data args <-> neverEnds camel p s' fs0' data args).
Proof.
  intros camel os fs r p PK s s' ms1 m m' ms2 nm b f i v DS DS' EC EM EM' WI EI FITS SC fs0 fs0' data args VA G G' VD RV AG same.
  assert (VA' : ctxValues camel r s' args) by (unfold ctxValues in *; now rewrite EC).
  pose proof (Build_validCall camel fs r s fs0 data args DS VA G VD) as VC. pose proof (Build_validCall camel fs r s' fs0' data args DS' VA' G' VD) as VC'.
  assert (C' : checkStruct camel r s' = true) by (eapply pk_check; eauto; now apply (defines_in fs)).
  destruct (within_fields _ _ m m' WI) as (A & B & EA & EA'). cbn [allFields app] in EA, EA'.
  set (key := fun f : string * type => camel (fst f)).
  assert (EF : flat_map allFields (members_of s) = (flat_map allFields ms1 ++ A) ++ (nm, TVar b (Some (LRef f))) :: (B ++ flat_map allFields ms2)).
  { rewrite EM, flat_map_app. cbn [flat_map]. rewrite EA. rewrite <- !app_assoc. reflexivity. }
  assert (EF' : flat_map allFields (members_of s') = (flat_map allFields ms1 ++ A) ++ (nm, TFixed b i) :: (B ++ flat_map allFields ms2)).
  { rewrite EM', flat_map_app. cbn [flat_map]. rewrite EA'. rewrite <- !app_assoc. reflexivity. }
  set (L := flat_map allFields ms1 ++ A) in *. set (R := B ++ flat_map allFields ms2) in *.
  assert (ND : NoDup (map key (flat_map allFields (members_of s)))) by (eapply struct_nodup; eauto; now apply (defines_in fs)).
  assert (ND' : NoDup (map key (flat_map allFields (members_of s')))) by (eapply struct_nodup; eauto; now apply (defines_in fs)).
  set (X := fun g => g = camel nm).
  assert (OUT : forall f, In f (L ++ R) -> ~ X (key f)).
  { intros g I E.
    rewrite EF, map_app in ND. cbn [map] in ND. apply NoDup_remove_2 in ND. apply ND. rewrite <- map_app. change (key (nm, TVar b (Some (LRef f)))) with (camel nm). unfold X in E. rewrite <- E. now apply in_map. }
  assert (MIDL : forall (f x : string * type), In f (L ++ x :: R) -> f = x \/ In f (L ++ R)) by (intros f0 x I; apply in_elt_inv in I as [I|I]; auto).
  assert (AP : apart camel X (flat_map allFields (ms1 ++ m :: ms2)) (flat_map allFields (ms1 ++ m' :: ms2)) (flat_map usesOf (ms1 ++ m' :: ms2))).
  { rewrite <- EM, <- EM'. split.
    - intros x t I J. rewrite EF in I. rewrite EF' in J. apply MIDL in I as [I|I]; [|exact (OUT _ I)]. apply MIDL in J as [J|J]; [congruence|exact (OUT _ J)].
    - intros g I E. apply in_flat_map in I as (m0 & I & J). destruct (struct_uses camel r s' C' m0 g I J E) as (z & cst & K). rewrite EF' in K. apply MIDL in K as [K|K]; [discriminate K|exact (OUT _ K)]. }
  assert (CI : exists k, checkType r (scontexts s') k (TFixed b i) = true).
  { apply (field_pos camel r s' C' nm). rewrite EF'. apply in_or_app. right. now left. }
  destruct CI as [kk CI]. cbn [checkType] in CI. apply andb_true_iff in CI as [CB GC]. unfold goodCount in GC. rewrite EI in GC. assert (GZ : 0 <= v < two63) by lia. clear GC.
  assert (BT : exists g, tipe camel r b = Ok g /\ gsize g = cell b).
  { assert (CT : checkType r (scontexts s') [] b = true) by (destruct b; auto; discriminate).
    destruct (tipe_ok camel r b _ _ CT) as [g GT]. exists g. split; auto. now destruct (cell_size camel r _ b g CB GT). }
  set (ready := fun a a' : amap value => alookup (camel nm) a <> None /\ alookup (camel nm) a' <> None).
  set (kept := fun a a' b b' : amap value => (alookup (camel nm) b = alookup (camel nm) a /\ alookup (camel nm) b' = alookup (camel nm) a') \/
     exists vs, blen vs = v /\ alookup (camel nm) b = Some (VList vs) /\ alookup (camel nm) b' = Some (VList vs)).
  assert (KS : forall a a' b b', (forall g, X g -> alookup g b = alookup g a /\ alookup g b' = alookup g a') -> kept a a' b b').
  { intros a a' d d' H. left. split; [now apply (H (camel nm))|now apply (H (camel nm))]. }
  assert (KT : forall a a' b b' c c', kept a a' b b' -> kept b b' c c' -> kept a a' c c').
  { intros a a' d d' c c' H [[E1 E2]|Y]; [unfold kept in *; rewrite E1, E2; exact H|now right]. }
  assert (RS : forall a a' b b', (forall g, X g -> alookup g b = alookup g a /\ alookup g b' = alookup g a') -> ready a a' -> ready b b').
  { intros a a' d d' H [P Q]. split; [destruct (H (camel nm) eq_refl) as [-> _]|destruct (H (camel nm) eq_refl) as [_ ->]]; auto. }
  assert (RD : ready fs0 fs0').
  { assert (I : In (nm, TVar b (Some (LRef f))) (flat_map allFields (members_of s))) by (rewrite EF; apply in_or_app; right; now left).
    assert (I' : In (nm, TFixed b i) (flat_map allFields (members_of s'))) by (rewrite EF'; apply in_or_app; right; now left).
    destruct (goStruct_lookup camel r s fs0 G ND _ _ I) as (v0 & E & _). destruct (goStruct_lookup camel r s' fs0' G' ND' _ _ I') as (v' & E' & _). split; congruence. }
  assert (AX : agreeX X fs0 fs0') by (intros g N; apply AG; intros ->; now apply N).
  set (dec := fun n => decStruct camel r n s fs0 (contextsOf s args) data). set (dec' := fun n => decStruct camel r n s' fs0' (contextsOf s' args) data).
  assert (ST : forall n, rel X kept fs0 fs0' (dec (S n)) (dec' (S n))).
  { intros n. unfold dec, dec'. cbn [decStruct]. replace (contextsOf s' args) with (contextsOf s args) by (unfold contextsOf; now rewrite EC). rewrite EM, EM'.
    apply (members_rel camel r X kept KS KT n (contextsOf s args) data ready RS m m' ms1 ms2); [|exact AP|exact AX|exact (proj1 VD)|exact RD].
    intros APM. apply (member_rel camel r X kept KS KT (MField nm (TVar b (Some (LRef f)))) (MField nm (TFixed b i)) n (contextsOf s args) data ready RS); [|exact WI|exact APM].
    intros a a' c AA AB [R1 R2]. cbn [decMember decType].
    assert (RA : refers camel (contextsOf s args) a f v) by (apply (refers_agree camel _ [] a); [intros Q; contradiction|exact RV]).
    rewrite (proj2 (refVal_refers camel _ a f v) RA), (proj2 (integerOf_value r i v) EI). destruct BT as (g & -> & GS). cbn [bind].
    rewrite s64_id, GS by lia. change (2 ^ 48) with maxAlloc in FITS. replace ((v <? 0) || (maxAlloc <? v * cell b)) with false by lia.
    destruct (decFor r (decCall camel r n) (contextsOf s args) (blen data) n b v c) as [[vs c1]|e|e|] eqn:DF; cbn [bind rel]; auto. split; [reflexivity|]. split.
    - intros g0 NX. rewrite !alookup_assign_other; auto; intros ->; now apply NX.
    - right. exists vs. rewrite !alookup_assign, !String.eqb_refl. destruct (alookup (camel nm) a); [|congruence]. destruct (alookup (camel nm) a'); [|congruence]. split; auto. eapply for_count; eauto; lia. }
  assert (SM : forall a a', agreeX X a a' -> kept fs0 fs0' a a' -> same a a').
  { intros a a' Y K. split; [|exact K]. intros g N1. apply Y. exact N1. }
  set (far := fun n => S n).
  assert (FS : forall n, let o := dec n in o <> OutOfFuel -> dec (far n) = o).
  { intros n o NO. eapply dec_final with (n := n); unfold far; eauto. }
  assert (FS' : forall n, let o := dec' n in o <> OutOfFuel -> dec' (far n) = o).
  { intros n o NO. eapply dec_final with (n := n); unfold far; eauto. }
  assert (ST' : forall n, rel X kept fs0 fs0' (dec (far n)) (dec' (far n))) by (intros n; apply ST).
  clearbody far. unfold rel in ST'.
  split; [|split; [|split; [|split]]].
  - intros fs1 rest H. apply (parses_dec camel os fs r p PK _ _ _ _ VC) in H as [n H]. change (dec n = Ok (fs1, rest)) in H. specialize (FS n). rewrite H in FS. specialize (FS ltac:(discriminate)). specialize (ST' n). rewrite FS in ST'.
    destruct (dec' (far n)) as [[a' c']| | |] eqn:E; try contradiction. destruct ST' as (<- & XA & Y). exists a'. split; auto.
    apply (parses_dec camel os fs r p PK _ _ _ _ VC'). eauto.
  - intros fs1 rest H. apply (parses_dec camel os fs r p PK _ _ _ _ VC') in H as [n H]. change (dec' n = Ok (fs1, rest)) in H. specialize (FS' n). rewrite H in FS'. specialize (FS' ltac:(discriminate)). specialize (ST' n). rewrite FS' in ST'.
    destruct (dec (far n)) as [[a c]| | |] eqn:E; try contradiction. destruct ST' as (-> & XA & Y). exists a. split; auto.
    apply (parses_dec camel os fs r p PK _ _ _ _ VC). eauto.
  - intros e. rewrite (fails_dec camel os fs r p PK _ _ _ _ VC), (fails_dec camel os fs r p PK _ _ _ _ VC'). split; intros [n H]; exists (far n); specialize (ST' n).
    + change (dec n = Err e) in H. specialize (FS n). rewrite H in FS. rewrite (FS ltac:(discriminate)) in ST'. change (dec' (far n) = Err e). destruct (dec' (far n)) as [[a' c']| | |]; try contradiction. congruence.
    + change (dec' n = Err e) in H. specialize (FS' n). rewrite H in FS'. rewrite (FS' ltac:(discriminate)) in ST'. change (dec (far n) = Err e). destruct (dec (far n)) as [[a c]| | |]; try contradiction. congruence.
  - intros e. rewrite (panics_dec camel os fs r p PK _ _ _ _ VC), (panics_dec camel os fs r p PK _ _ _ _ VC'). split; intros [n H]; exists (far n); specialize (ST' n).
    + change (dec n = Panic e) in H. specialize (FS n). rewrite H in FS. rewrite (FS ltac:(discriminate)) in ST'. change (dec' (far n) = Panic e). destruct (dec' (far n)) as [[a' c']| | |]; try contradiction. congruence.
    + change (dec' n = Panic e) in H. specialize (FS' n). rewrite H in FS'. rewrite (FS' ltac:(discriminate)) in ST'. change (dec (far n) = Panic e). destruct (dec (far n)) as [[a c]| | |]; try contradiction. congruence.
  - unfold neverEnds. split; intros H n.
    + apply (run_fuel camel os fs r p PK _ _ _ _ VC'). change (dec' n = OutOfFuel). pose proof (proj1 (run_fuel camel os fs r p PK _ _ _ _ VC (far n)) (H (far n))) as Z0. change (dec (far n) = OutOfFuel) in Z0.
      specialize (ST' n). specialize (FS' n). cbv zeta in FS'. rewrite Z0 in ST'. destruct (dec' n) as [[a c]|e|e|]; auto; rewrite FS' in ST' by discriminate; contradiction.
    + apply (run_fuel camel os fs r p PK _ _ _ _ VC). change (dec n = OutOfFuel). pose proof (proj1 (run_fuel camel os fs r p PK _ _ _ _ VC' (far n)) (H (far n))) as Z0. change (dec' (far n) = OutOfFuel) in Z0.
      specialize (ST' n). specialize (FS n). cbv zeta in FS. rewrite Z0 in ST'. destruct (dec n) as [[a c]|e|e|]; auto; rewrite FS in ST' by discriminate; contradiction.
Qed.
Print Assumptions C111_context.

(** [context c { u8 k; u8 n; }],
    [struct var with context c { union u[c.k] { 1: u16 a[c.n]; default: ignore; }; u8 z; }] and
    [struct fix with context c { union u[c.k] { 1: u16 a[2]; default: ignore; }; u8 z; }]. *)
Definition cxCtx := mkCtx "c" [("k", TInt 8 None); ("n", TInt 8 None)].
Definition cxVarM := MField "a" (TVar (TInt 16 None) (Some (LRef (mkRef "c" "n")))).
Definition cxFixM := MField "a" (TFixed (TInt 16 None) (ILit 2)).
Definition cxU (m : member) := MUnion "u" (mkRef "c" "k") None ([] ++ UCase (Some [mkRange (ILit 1) None]) ([] ++ m :: []) :: [UCase None [MIgnore]]).
Definition cxVar := mkStruct "var" ["c"] (Some [cxU cxVarM; u8 "z"]).
Definition cxFix := mkStruct "fix" ["c"] (Some [cxU cxFixM; u8 "z"]).
Definition cx := [mkFile [] [cxCtx] [cxVar; cxFix] []].
Lemma cx_package : package camelX osX cx (theRes cx) (theProg cx).
Proof. apply package_of; vm_compute; reflexivity. Qed.
Definition cxV : value := VStruct "C" [("K", VInt 1); ("N", VInt 2)].
Example C111_case : package camelX osX cx (theRes cx) (theProg cx) /\ defines cx cxVar /\ defines cx cxFix /\
  members_of cxVar = [] ++ cxU cxVarM :: [u8 "z"] /\ members_of cxFix = [] ++ cxU cxFixM :: [u8 "z"] /\ within cxVarM cxFixM (cxU cxVarM) (cxU cxFixM) /\
  ctxValues camelX (theRes cx) cxVar [cxV] /\ refers camelX (contextsOf cxVar [cxV]) [] (mkRef "c" "n") 2 /\ 2 * cell (TInt 16 None) <= 2 ^ 48 /\
  (forall g, g <> camelX "a" -> alookup g (blank camelX (Constant (theRes cx)) cxVar) = alookup g (blank camelX (Constant (theRes cx)) cxFix)) /\
  parses camelX (theProg cx) cxVar (blank camelX (Constant (theRes cx)) cxVar) [1; 3; 0; 4; 9; 5] [cxV] [("A", VList [VInt 259; VInt 4]); ("Z", VInt 9)] [5] /\
  parses camelX (theProg cx) cxFix (blank camelX (Constant (theRes cx)) cxFix) [1; 3; 0; 4; 9; 5] [cxV] [("A", VList [VInt 259; VInt 4]); ("Z", VInt 9)] [5].
Proof.
  assert (G : goBytes [1; 3; 0; 4; 9; 5]) by (apply bytes_ok; vm_compute; reflexivity).
  assert (D1 : defines cx cxVar) by (split; [reflexivity|]; eexists; split; [left; reflexivity|now left]).
  assert (D2 : defines cx cxFix) by (split; [reflexivity|]; eexists; split; [left; reflexivity|right; now left]).
  assert (CV : forall s, scontexts s = ["c"] -> ctxValues camelX (theRes cx) s [cxV]).
  { intros s E. unfold ctxValues. rewrite E. constructor; [|constructor]. exists cxCtx. split; [vm_compute; reflexivity|]. exists [("K", VInt 1); ("N", VInt 2)]. split; [reflexivity|].
    repeat constructor; intros sz cst Q; injection Q as <- <-; eexists; split; try reflexivity; lia. }
  assert (V : forall s, defines cx s -> scontexts s = ["c"] -> validCall camelX cx (theRes cx) s (blank camelX (Constant (theRes cx)) s) [1; 3; 0; 4; 9; 5] [cxV]).
  { intros s D E. constructor; auto. apply (blank_goStruct camelX osX cx (theRes cx) (theProg cx) cx_package). now apply (defines_in cx). }
  split; [exact cx_package|]. split; [exact D1|]. split; [exact D2|]. split; [reflexivity|]. split; [reflexivity|]. split; [apply W_case; constructor|]. split; [now apply CV|]. split; [|split; [cbn; lia|split; [|split]]].
  - exists "C", [("K", VInt 1); ("N", VInt 2)]. split; reflexivity.
  - intros g N. cbn [blank flat_map members_of cxVar cxFix cxU cxVarM cxFixM smembers u8 allFields app map fst snd alookup]. destruct (String.eqb_spec g (camelX "a")); [contradiction|]. reflexivity.
  - apply (parses_dec camelX osX _ _ _ cx_package _ _ _ _ (V cxVar D1 eq_refl)). exists 9%nat. vm_compute. reflexivity.
  - apply (parses_dec camelX osX _ _ _ cx_package _ _ _ _ (V cxFix D2 eq_refl)). exists 9%nat. vm_compute. reflexivity.
Qed.
