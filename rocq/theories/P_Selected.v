(** Property C113: of the cases of a union only what they select matters. *)
From Coq Require Import ZArith String List Bool Lia ZifyBool ZifyNat.
From Verif Require Import Base Ast IntervalsModel InspectModel InspectSpec InspectProofs GoLang GenModel GenDecode GenCheck GenSim GenSimBody GenSimProg GenMono WireSpec WireProofs WireComplete WireFacts GenTerm FwdProofs
  PackageSpec PackageProofs PackageFacts PackageMore GenExamples GenWitness IndepSpec UnrollProofs P_Unroll WithinSpec.
From Verif Require Import ReachProofs P_Within.
From Verif Require BranchProofs.
Import ListNotations.
Open Scope string_scope.
Open Scope list_scope.
Open Scope Z_scope.

(** The members that are read for a tag, none if there is no case for it. *)
Definition reads (cv : string -> option Z) (cs : list ucase) (x : Z) (ms : list member) : Prop :=
  (exists c, takes cv cs x c /\ ucase_members c = ms) \/ ((forall c, ~ takes cv cs x c) /\ ms = []).
Lemma pick_reads : forall camel r dcall n cenv dat cs x ms fs c, one_default cs -> reads (Constant r) cs x ms ->
  decPick camel r dcall n cenv dat cs x cs fs c = decMembers camel r dcall n cenv (blen dat) ms fs c.
Proof.
  intros camel r dcall n cenv dat cs x ms fs c OD [(cse & T & <-)|[N ->]].
  - now apply pick_taken.
  - cbn [decMembers]. now apply pick_none.
Qed.
Lemma reads_some : forall camel r dcall n cenv dat cs x fs c, exists ms, reads (Constant r) cs x ms /\ decPick camel r dcall n cenv dat cs x cs fs c = decMembers camel r dcall n cenv (blen dat) ms fs c.
Proof.
  intros. destruct (pick_spec camel r dcall n cenv dat cs x fs c cs [] eq_refl (Forall_nil _)) as [(cse & T & E)|[N E]].
  - exists (ucase_members cse). split; [left; eauto|exact E].
  - exists []. split; [right; auto|exact E].
Qed.
Definition nowhere (g : string) : Prop := False.
Lemma free_nowhere : forall camel ms, Forall (free camel nowhere) ms.
Proof. intros camel ms. apply Forall_forall. intros m _. split; intros; intros []. Qed.

(** C113.  Let a struct have a union, anywhere, also in cases of other unions at any depth, and let
    another have a union with the same tag and length in its place.  If for every value of the tag
    the same members are read, then the two structs parse alike in every respect.  So lists may be
    split and joined, the order may be changed, cases for values that earlier ones have may be left
    out, and so may those that read what the default reads, as far as the same members are read. *)
Theorem C113_selected : forall camel os fs r p, package camel os fs r p ->
  forall s s' ms1 m m' ms2 u u' tag len cs cs', defines fs s -> defines fs s' -> scontexts s' = scontexts s ->
  members_of s = ms1 ++ m :: ms2 -> members_of s' = ms1 ++ m' :: ms2 -> within (MUnion u tag len cs) (MUnion u' tag len cs') m m' ->
  one_default cs -> one_default cs' -> (forall x ms, reads (Constant r) cs x ms <-> reads (Constant r) cs' x ms) ->
  forall fs0 fs0' data args, ctxValues camel r s args -> goStruct camel r s fs0 -> goStruct camel r s' fs0' -> goBytes data ->
  (forall g, alookup g fs0 = alookup g fs0') ->
  let same (a a' : amap value) := forall g, alookup g a = alookup g a' in
  (forall fs1 rest, parses camel p s fs0 data args fs1 rest -> exists fs1', parses camel p s' fs0' data args fs1' rest /\ same fs1 fs1') /\
  (forall fs1' rest, parses camel p s' fs0' data args fs1' rest -> exists fs1, parses camel p s fs0 data args fs1 rest /\ same fs1 fs1') /\
  (forall e, fails camel p s fs0 data args e <-> fails camel p s' fs0' data args e) /\
  (forall m, panics camel p s fs0 data args m <-> panics camel p s' fs0' data args m) /\
  (neverEnds camel p s fs0 data args <-> neverEnds camel p s' fs0' data args).
Proof.
  intros camel os fs r p PK s s' ms1 m m' ms2 u u' tag len cs cs' DS DS' EC EM EM' WI OD OD' RD fs0 fs0' data args VA G G' VD AG same.
  assert (VA' : ctxValues camel r s' args) by (unfold ctxValues in *; now rewrite EC).
  pose proof (Build_validCall camel fs r s fs0 data args DS VA G VD) as VC. pose proof (Build_validCall camel fs r s' fs0' data args DS' VA' G' VD) as VC'.
  set (X := nowhere).
  set (ready := fun a a' : amap value => True).
  set (kept := fun a a' b b' : amap value => True).
  assert (KS : forall a a' b b', (forall g, X g -> alookup g b = alookup g a /\ alookup g b' = alookup g a') -> kept a a' b b') by (intros; exact I).
  assert (KT : forall a a' b b' c c', kept a a' b b' -> kept b b' c c' -> kept a a' c c') by (intros; exact I).
  assert (RS : forall a a' b b', (forall g, X g -> alookup g b = alookup g a /\ alookup g b' = alookup g a') -> ready a a' -> ready b b') by (intros; exact I).
  assert (AP : forall fl fl' ul, apart camel X fl fl' ul) by (intros; split; intros; intros []).
  assert (AX : agreeX X fs0 fs0') by (intros g _; apply AG).
  set (dec := fun n => decStruct camel r n s fs0 (contextsOf s args) data). set (dec' := fun n => decStruct camel r n s' fs0' (contextsOf s' args) data).
  assert (ST : forall n, rel X kept fs0 fs0' (dec (S n)) (dec' (S n))).
  { intros n. unfold dec, dec'. cbn [decStruct]. replace (contextsOf s' args) with (contextsOf s args) by (unfold contextsOf; now rewrite EC). rewrite EM, EM'. set (cenv := contextsOf s args).
    apply (members_rel camel r X kept KS KT n cenv data ready RS m m' ms1 ms2); [|apply AP|exact AX|exact (proj1 VD)|exact I].
    intros APM. apply (member_rel camel r X kept KS KT (MUnion u tag len cs) (MUnion u' tag len cs') n cenv data ready RS); [|exact WI|exact APM].
    intros a a' c AA AB _. apply (like_rel X kept KS). rewrite !decMember_union.
    assert (B : forall c, like X a a' (x <- refVal camel a cenv tag ;; decPick camel r (decCall camel r n) n cenv data cs x cs a c) (x <- refVal camel a' cenv tag ;; decPick camel r (decCall camel r n) n cenv data cs' x cs' a' c)).
    { intros c0. rewrite <- (ref_like camel X cenv a a' tag AA) by (intros _ []). destruct (refVal camel a cenv tag) as [x|e|e|]; cbn [bind like]; auto.
      destruct (reads_some camel r (decCall camel r n) n cenv data cs x a c0) as (ms & R1 & ->). rewrite (pick_reads camel r (decCall camel r n) n cenv data cs' x ms a' c0 OD' (proj1 (RD x ms) R1)).
      apply members_like; auto. apply free_nowhere. }
    cbv zeta. destruct len as [[f|i]|]; cbn [decConstr].
    - rewrite (ref_like camel X cenv a a' f AA) by (intros _ []). apply like_same. intros k. now apply like_within.
    - apply like_same. intros k. now apply like_leaving.
    - apply B. }
  assert (SM : forall a a', agreeX X a a' -> kept fs0 fs0' a a' -> same a a') by (intros a a' Y _ g; apply Y; intros []).
  set (far := fun n => S n).
  assert (FS : forall n, let o := dec n in o <> OutOfFuel -> dec (far n) = o).
  { intros n o NO. eapply dec_final with (n := n); unfold far; eauto. }
  assert (FS' : forall n, let o := dec' n in o <> OutOfFuel -> dec' (far n) = o).
  { intros n o NO. eapply dec_final with (n := n); unfold far; eauto. }
  assert (ST' : forall n, rel X kept fs0 fs0' (dec (far n)) (dec' (far n))) by (intros n; apply ST).
  clearbody far. unfold rel in ST'.
  split; [|split; [|split; [|split]]].
  - intros fs1 rest H. apply (parses_dec camel os fs r p PK _ _ _ _ VC) in H as [n H]. change (dec n = Ok (fs1, rest)) in H. specialize (FS n). rewrite H in FS. specialize (FS ltac:(discriminate)). specialize (ST' n). rewrite FS in ST'.
    destruct (dec' (far n)) as [[a' c']| | |] eqn:E; try contradiction. destruct ST' as (<- & XA & Y). exists a'. split; auto.
    apply (parses_dec camel os fs r p PK _ _ _ _ VC'). eauto.
  - intros fs1 rest H. apply (parses_dec camel os fs r p PK _ _ _ _ VC') in H as [n H]. change (dec' n = Ok (fs1, rest)) in H. specialize (FS' n). rewrite H in FS'. specialize (FS' ltac:(discriminate)). specialize (ST' n). rewrite FS' in ST'.
    destruct (dec (far n)) as [[a c]| | |] eqn:E; try contradiction. destruct ST' as (-> & XA & Y). exists a. split; auto.
    apply (parses_dec camel os fs r p PK _ _ _ _ VC). eauto.
  - intros e. rewrite (fails_dec camel os fs r p PK _ _ _ _ VC), (fails_dec camel os fs r p PK _ _ _ _ VC'). split; intros [n H]; exists (far n); specialize (ST' n).
    + change (dec n = Err e) in H. specialize (FS n). rewrite H in FS. rewrite (FS ltac:(discriminate)) in ST'. change (dec' (far n) = Err e). destruct (dec' (far n)) as [[a' c']| | |]; try contradiction. congruence.
    + change (dec' n = Err e) in H. specialize (FS' n). rewrite H in FS'. rewrite (FS' ltac:(discriminate)) in ST'. change (dec (far n) = Err e). destruct (dec (far n)) as [[a c]| | |]; try contradiction. congruence.
  - intros e. rewrite (panics_dec camel os fs r p PK _ _ _ _ VC), (panics_dec camel os fs r p PK _ _ _ _ VC'). split; intros [n H]; exists (far n); specialize (ST' n).
    + change (dec n = Panic e) in H. specialize (FS n). rewrite H in FS. rewrite (FS ltac:(discriminate)) in ST'. change (dec' (far n) = Panic e). destruct (dec' (far n)) as [[a' c']| | |]; try contradiction. congruence.
    + change (dec' n = Panic e) in H. specialize (FS' n). rewrite H in FS'. rewrite (FS' ltac:(discriminate)) in ST'. change (dec (far n) = Panic e). destruct (dec (far n)) as [[a c]| | |]; try contradiction. congruence.
  - unfold neverEnds. split; intros H n.
    + apply (run_fuel camel os fs r p PK _ _ _ _ VC'). change (dec' n = OutOfFuel). pose proof (proj1 (run_fuel camel os fs r p PK _ _ _ _ VC (far n)) (H (far n))) as Z0. change (dec (far n) = OutOfFuel) in Z0.
      specialize (ST' n). specialize (FS' n). cbv zeta in FS'. rewrite Z0 in ST'. destruct (dec' n) as [[a c]|e|e|]; auto; rewrite FS' in ST' by discriminate; contradiction.
    + apply (run_fuel camel os fs r p PK _ _ _ _ VC). change (dec n = OutOfFuel). pose proof (proj1 (run_fuel camel os fs r p PK _ _ _ _ VC' (far n)) (H (far n))) as Z0. change (dec' (far n) = OutOfFuel) in Z0.
      specialize (ST' n). specialize (FS n). cbv zeta in FS. rewrite Z0 in ST'. destruct (dec n) as [[a c]|e|e|]; auto; rewrite FS in ST' by discriminate; contradiction.
Qed.
Print Assumptions C113_selected.

(** [struct split { u8 k; union u[k] { 1: u8 a; 2: fail; 3: fail; 4: ignore; default: fail; }; }] and
    [struct short { u8 k; union u[k] { 4: ignore; 1: u8 a; default: fail; }; }]. *)
Definition seLit (k : Z) := Some [mkRange (ILit k) None].
Definition seLong := [UCase (seLit 1) [u8 "a"]; UCase (seLit 2) [MFail]; UCase (seLit 3) [MFail]; UCase (seLit 4) [MIgnore]; UCase None [MFail]].
Definition seShort := [UCase (seLit 4) [MIgnore]; UCase (seLit 1) [u8 "a"]; UCase None [MFail]].
Definition seLongS := mkStruct "split" [] (Some ([u8 "k"] ++ MUnion "u" (local "k") None seLong :: [])).
Definition seShortS := mkStruct "short" [] (Some ([u8 "k"] ++ MUnion "u" (local "k") None seShort :: [])).
Notation atS := (one [seLongS; seShortS]).
Lemma se_package : package camelX osX atS (theRes atS) (theProg atS).
Proof. apply package_of; vm_compute; reflexivity. Qed.
(** What is read can be computed. *)
Lemma reads_choice : forall r cs x ms, one_default cs -> (reads (Constant r) cs x ms <-> ms = match choice r x cs cs with Some q => q | None => [] end).
Proof.
  intros r cs x ms OD.
  assert (ONE : forall q q', reads (Constant r) cs x q -> reads (Constant r) cs x q' -> q = q').
  { intros q q' [(c & T & <-)|[N ->]] [(c' & T' & <-)|[N' ->]]; auto; [now rewrite (BranchProofs.takes_unique _ _ _ _ _ OD T T')|exfalso; eapply N'; eauto|exfalso; eapply N; eauto]. }
  assert (IS : reads (Constant r) cs x (match choice r x cs cs with Some q => q | None => [] end)).
  { assert (PI : forall pre post, cs = pre ++ post -> Forall (fun p => ~ case_matches (Constant r) p x) pre ->
      match pickCase r x post with Some q => exists c, takes (Constant r) cs x c /\ ucase_members c = q | None => Forall (fun p => ~ case_matches (Constant r) p x) cs end).
    { intros pre post. revert pre. induction post as [|[[l|] k] post IH]; intros pre E F; cbn [pickCase].
      - rewrite app_nil_r in E. now subst.
      - destruct (inList r x l) eqn:IL.
        + exists (UCase (Some l) k). split; auto. left. exists pre, post. split; auto. split; auto. exists l. split; auto. now apply inList_spec.
        + apply (IH (pre ++ [UCase (Some l) k])); [now rewrite <- app_assoc|]. apply Forall_app. split; auto. constructor; auto. intros (l0 & E0 & I0). cbn in E0. injection E0 as <-. apply inList_spec in I0. congruence.
      - apply (IH (pre ++ [UCase None k])); [now rewrite <- app_assoc|]. apply Forall_app. split; auto. constructor; auto. intros (l0 & E0 & _). discriminate E0. }
    specialize (PI [] cs eq_refl (Forall_nil _)). unfold choice. destruct (pickCase r x cs) as [q|]; [left; exact PI|].
    assert (DI : forall post, match defaultCase post with Some q => In (UCase None q) post | None => forall q, ~ In (UCase None q) post end).
    { induction post as [|[[l|] k] post IH]; cbn [defaultCase]; [intros q []| |now left]. destruct (defaultCase post); [now right|]. intros q [E|E]; [discriminate E|exact (IH q E)]. }
    specialize (DI cs). destruct (defaultCase cs) as [q|].
    - left. exists (UCase None q). split; auto. right. auto.
    - right. split; auto. intros c [(pre & post & E & M & _)|(_ & J & E)].
      + rewrite Forall_forall in PI. apply (PI c); auto. rewrite E. apply in_or_app. right. now left.
      + destruct c as [l k]. cbn in E. subst l. exact (DI k J). }
  split; [intros H; exact (ONE _ _ H IS)|now intros ->].
Qed.
Example C113_case : package camelX osX atS (theRes atS) (theProg atS) /\ defines atS seLongS /\ defines atS seShortS /\
  one_default seLong /\ one_default seShort /\ (forall x ms, reads (Constant (theRes atS)) seLong x ms <-> reads (Constant (theRes atS)) seShort x ms) /\
  (forall g, alookup g (blank camelX (Constant (theRes atS)) seLongS) = alookup g (blank camelX (Constant (theRes atS)) seShortS)) /\
  parses camelX (theProg atS) seLongS (blank camelX (Constant (theRes atS)) seLongS) [1; 7; 5] [] [("K", VInt 1); ("A", VInt 7)] [5] /\
  parses camelX (theProg atS) seShortS (blank camelX (Constant (theRes atS)) seShortS) [1; 7; 5] [] [("K", VInt 1); ("A", VInt 7)] [5].
Proof.
  assert (G : goBytes [1; 7; 5]) by (apply bytes_ok; vm_compute; reflexivity).
  assert (V : forall s, In s [seLongS; seShortS] -> validCall camelX atS (theRes atS) s (blank camelX (Constant (theRes atS)) s) [1; 7; 5] []).
  { intros s I. apply (fresh_call [seLongS; seShortS] s); [vm_compute; reflexivity|exact I|destruct I as [<-|[<-|[]]]; reflexivity|destruct I as [<-|[<-|[]]]; reflexivity|exact G]. }
  assert (ONE : forall pre ms, Forall (fun c => ucase_list c <> None) pre -> one_default (pre ++ [UCase None ms])).
  { intros pre ms F l1 c l2 d l3 E N _. assert (J : In c pre); [|rewrite Forall_forall in F; exact (F c J N)].
    assert (E1 : pre ++ [UCase None ms] = (l1 ++ c :: l2) ++ d :: l3) by (rewrite E, <- app_assoc; reflexivity).
    clear E. destruct (exists_last (l := d :: l3)) as (q & z & EQ); [discriminate|]. rewrite EQ, app_assoc in E1. apply app_inj_tail in E1 as [-> _].
    apply in_or_app. left. apply in_or_app. right. now left. }
  assert (O1 : one_default seLong) by (apply (ONE [UCase (seLit 1) [u8 "a"]; UCase (seLit 2) [MFail]; UCase (seLit 3) [MFail]; UCase (seLit 4) [MIgnore]] [MFail]); repeat constructor; discriminate).
  assert (O2 : one_default seShort) by (apply (ONE [UCase (seLit 4) [MIgnore]; UCase (seLit 1) [u8 "a"]] [MFail]); repeat constructor; discriminate).
  split; [exact se_package|]. split; [apply (V seLongS); cbn; auto|]. split; [apply (V seShortS); cbn; auto|]. split; [exact O1|]. split; [exact O2|]. split; [|split; [|split]].
  - intros x ms. rewrite (reads_choice _ _ x ms O1), (reads_choice _ _ x ms O2).
    assert (L : forall k, inList (theRes atS) x [mkRange (ILit k) None] = (x =? k)) by (intros k; cbn; lia).
    unfold choice, seLong, seShort, seLit. cbn [pickCase defaultCase]. rewrite !L.
    destruct (Z.eqb_spec x 1) as [->|]; [reflexivity|]. destruct (Z.eqb_spec x 2) as [->|]; [reflexivity|]. destruct (Z.eqb_spec x 3) as [->|]; [reflexivity|]. destruct (Z.eqb_spec x 4); reflexivity.
  - intros g. reflexivity.
  - apply (parses_dec camelX osX _ _ _ se_package _ _ _ _ (V seLongS (or_introl eq_refl))). exists 9%nat. vm_compute. reflexivity.
  - apply (parses_dec camelX osX _ _ _ se_package _ _ _ _ (V seShortS (or_intror (or_introl eq_refl)))). exists 9%nat. vm_compute. reflexivity.
Qed.
