(** Property C108: what is ignored can be kept. *)
From Coq Require Import ZArith String List Bool Lia ZifyBool ZifyNat.
From Verif Require Import Base Ast IntervalsModel InspectModel InspectSpec InspectProofs GoLang GenModel GenDecode GenCheck GenSim GenSimBody GenSimProg GenMono WireSpec WireProofs WireComplete WireFacts GenTerm FwdProofs
  PackageSpec PackageProofs PackageFacts PackageMore GenExamples GenWitness IndepSpec UnrollProofs P_Unroll FrameProofs IgnoreSpec.
Import ListNotations.
Open Scope string_scope.
Open Scope list_scope.
Open Scope Z_scope.

Section Ignored.
Variable camel : string -> string.
Variable r : resolver.
Variable nm : string.
Variable data : bytes.
Notation K := (camel nm).
Notation bytesT := (TVar (TInt 8 None) None).
Definition Xn (g : string) : Prop := g = K.
(** The array is as it was, or some part of the data. *)
Definition piece (c : bytes) : Prop := exists u v, data = u ++ c ++ v.
Definition kept (a b : amap value) : Prop := alookup K b = alookup K a \/ exists w, piece w /\ alookup K b = Some (VList (map VInt w)).
Definition rel (a' : amap value) (o o' : outcome (amap value * bytes)) : Prop :=
  match o, o' with
  | Ok (b, c), Ok (b', c') => c = c' /\ agreeX Xn b b' /\ kept a' b'
  | Err e, Err e' => e = e'
  | Panic e, Panic e' => e = e'
  | OutOfFuel, OutOfFuel => True
  | _, _ => False
  end.
Lemma piece_suffix : forall c c1, piece c -> FwdProofs.suffix c c1 -> piece c1.
Proof. intros c c1 (u & v & E) [w ->]. exists (u ++ w), v. rewrite E, <- !app_assoc. reflexivity. Qed.
Lemma piece_firstn : forall k c, piece c -> piece (firstn k c).
Proof. intros k c (u & v & E). exists u, (skipn k c ++ v). rewrite app_assoc with (l := firstn k c), firstn_skipn. exact E. Qed.
Lemma piece_length : forall c, piece c -> (List.length c <= List.length data)%nat.
Proof. intros c (u & v & ->). rewrite !app_length. lia. Qed.
Lemma kept_trans : forall a b c, kept a b -> kept b c -> kept a c.
Proof. intros a b c H [E|E]; [|now right]. destruct H as [H|(w & P & H)]; [left; congruence|]. right. exists w. split; auto. congruence. Qed.
Lemma like_rel : forall a a' o o', like Xn a a' o o' -> rel a' o o'.
Proof.
  intros a a' o o' L. destruct o as [[b c]| | |], o' as [[b' c']| | |]; cbn [like rel] in *; auto. destruct L as (E & A & X). split; auto. split; auto. left. now apply X.
Qed.
Lemma rel_bind : forall a' o o' k k', rel a' o o' ->
  (forall b b' c, o = Ok (b, c) -> o' = Ok (b', c) -> agreeX Xn b b' -> rel b' (k (b, c)) (k' (b', c))) -> rel a' (bind o k) (bind o' k').
Proof.
  intros a' o o' k k' L H. destruct o as [[b c]|e|m|], o' as [[b' c']|e'|m'|]; cbn [rel bind] in *; try contradiction; auto.
  destruct L as (-> & A & X). specialize (H b b' c' eq_refl eq_refl A). destruct (k (b, c')) as [[d e]| | |], (k' (b', c')) as [[d' e']| | |]; cbn [rel] in *; auto.
  destruct H as (E & A' & X'). split; auto. split; auto. eapply kept_trans; eauto.
Qed.
Lemma rel_within : forall a' k c f f', piece c -> (forall c, piece c -> rel a' (f c) (f' c)) -> rel a' (decWithin k c f) (decWithin k c f').
Proof.
  intros a' k c f f' P H. unfold decWithin. destruct (blen c <? k); [reflexivity|]. destruct (k <? 0); [reflexivity|].
  specialize (H (firstn (Z.to_nat k) c) (piece_firstn _ _ P)). destruct (f _) as [[a c1]| | |], (f' _) as [[b c1']| | |]; cbn [bind rel] in *; try contradiction; auto.
  destruct H as (-> & A & B). destruct (0 <? blen c1'); cbn [rel]; auto.
Qed.
Lemma rel_leaving : forall a' k c f f', piece c -> (forall c, piece c -> rel a' (f c) (f' c)) -> rel a' (decLeaving k c f) (decLeaving k c f').
Proof. intros a' k c f f' P H. unfold decLeaving. destruct (k <? 0); [reflexivity|]. destruct (blen c <? k); [reflexivity|]. now apply rel_within. Qed.

(** Cases with the same labels: the choice is the same but for the one in question. *)
Lemma choice_one : forall x cs1 l ms ms' cs2,
  (choice r x (cs1 ++ UCase l ms :: cs2) (cs1 ++ UCase l ms :: cs2) = Some ms /\ choice r x (cs1 ++ UCase l ms' :: cs2) (cs1 ++ UCase l ms' :: cs2) = Some ms') \/
  choice r x (cs1 ++ UCase l ms :: cs2) (cs1 ++ UCase l ms :: cs2) = choice r x (cs1 ++ UCase l ms' :: cs2) (cs1 ++ UCase l ms' :: cs2).
Proof.
  intros x cs1 l ms ms' cs2.
  assert (PC : (pickCase r x (cs1 ++ UCase l ms :: cs2) = Some ms /\ pickCase r x (cs1 ++ UCase l ms' :: cs2) = Some ms') \/ pickCase r x (cs1 ++ UCase l ms :: cs2) = pickCase r x (cs1 ++ UCase l ms' :: cs2)).
  { induction cs1 as [|[[l1|] k] cs1 IH]; cbn [app pickCase].
    - destruct l as [l|]; auto. destruct (inList r x l); auto.
    - destruct (inList r x l1); auto.
    - exact IH. }
  assert (DC : (defaultCase (cs1 ++ UCase l ms :: cs2) = Some ms /\ defaultCase (cs1 ++ UCase l ms' :: cs2) = Some ms') \/ defaultCase (cs1 ++ UCase l ms :: cs2) = defaultCase (cs1 ++ UCase l ms' :: cs2)).
  { clear PC. induction cs1 as [|[[l1|] k] cs1 IH]; cbn [app defaultCase].
    - destruct l as [l|]; auto.
    - exact IH.
    - now right. }
  unfold choice. destruct PC as [[-> ->]| ->]; auto. destruct (pickCase r x _); auto.
Qed.

Section Body.
Variable n : nat.
Variable cenv : amap value.
Hypothesis LONG : (List.length data <= n)%nat.
Notation dcall := (decCall camel r n).
Notation decM := (decMember camel r dcall n cenv (blen data)).
Notation decMs := (decMembers camel r dcall n cenv (blen data)).
Lemma members_rel : forall m m' ms1 ms2, Forall (free camel Xn) (ms1 ++ m :: ms2) ->
  (free camel Xn m -> forall a a' c, agreeX Xn a a' -> piece c -> alookup K a' <> None -> rel a' (decM m a c) (decM m' a' c)) ->
  forall a a' c, agreeX Xn a a' -> piece c -> alookup K a' <> None -> rel a' (decMs (ms1 ++ m :: ms2) a c) (decMs (ms1 ++ m' :: ms2) a' c).
Proof.
  intros m m' ms1 ms2 FR H a a' c A P N. apply Forall_app in FR as [F1 F2]. inversion F2 as [|? ? FM F3]; subst. rewrite !members_app.
  pose proof (members_like camel r Xn dcall n cenv data ms1 F1 a a' c A) as L.
  apply rel_bind; [eapply like_rel; exact L|]. intros b b' c1 E E' A1. rewrite E, E' in L. cbn [like] in L. destruct L as (_ & _ & KE).
  destruct (tame_members camel r dcall (leaves_call camel r n) n cenv data ms1 a c b c1 E) as [SF _].
  cbn [decMembers]. apply rel_bind.
  - apply H; auto; [eapply piece_suffix; eauto|]. destruct (KE K eq_refl) as [_ ->]. exact N.
  - intros d d' c2 _ _ A2. eapply like_rel. now apply members_like.
Qed.
Lemma free_inside : forall u tag len cs l ms, free camel Xn (MUnion u tag len cs) -> In (UCase l ms) cs -> Forall (free camel Xn) ms.
Proof.
  intros u tag len cs l ms [HF HU] I. apply Forall_forall. intros m J. split.
  - intros x t E. apply (HF x t). cbn [allFields]. apply in_flat_map. exists (UCase l ms). split; auto. apply in_flat_map. eauto.
  - intros f E. apply HU. cbn [usesOf]. right. apply in_or_app. right. apply in_flat_map. exists (UCase l ms). split; auto. apply in_flat_map. eauto.
Qed.
Lemma member_rel : forall m m', keeps nm m m' -> free camel Xn m -> forall a a' c, agreeX Xn a a' -> piece c -> alookup K a' <> None -> rel a' (decM m a c) (decM m' a' c).
Proof.
  intros m m' H. induction H as [|u tag len cs1 l ms1 m m' ms2 cs2 H IH]; intros FR a a' c A P N.
  - cbn [decMember decType]. assert (LC : (List.length c <= n)%nat) by (pose proof (piece_length c P); lia).
    rewrite (while_bytes r dcall n cenv data c n LC). cbn [bind rel]. split; [reflexivity|]. split.
    + intros g G. rewrite alookup_assign_other; auto.
    + right. exists c. split; auto. rewrite alookup_assign, String.eqb_refl. destruct (alookup K a'); congruence.
  - rewrite !decMember_union. set (cs := cs1 ++ UCase l (ms1 ++ m :: ms2) :: cs2) in *. set (cs' := cs1 ++ UCase l (ms1 ++ m' :: ms2) :: cs2).
    pose proof FR as [HF HU].
    assert (B : forall c, piece c -> rel a' (x <- refVal camel a cenv tag ;; decPick camel r dcall n cenv data cs x cs a c) (x <- refVal camel a' cenv tag ;; decPick camel r dcall n cenv data cs' x cs' a' c)).
    { intros c0 P0. rewrite (ref_like camel Xn cenv a a' tag A) by (apply HU; now left). destruct (refVal camel a' cenv tag) as [x|e|e|]; cbn [bind rel]; auto. rewrite !decPick_choice.
      assert (SAME : forall o, choice r x cs cs = o -> rel a' match o with Some ms => decMs ms a c0 | None => Ok (a, c0) end match o with Some ms => decMs ms a' c0 | None => Ok (a', c0) end).
      { intros [ms|] E; [|cbn [rel]; split; [reflexivity|]; split; [exact A|now left]]. apply choice_in in E as [l0 I]. eapply like_rel. apply members_like; auto. eapply free_inside; eauto. }
      destruct (choice_one x cs1 l (ms1 ++ m :: ms2) (ms1 ++ m' :: ms2) cs2) as [[E E']|E]; fold cs cs' in E.
      - fold cs' in E'. rewrite E, E'. apply members_rel; auto. eapply free_inside; [exact FR|]. unfold cs. apply in_or_app. right. now left.
      - rewrite <- E. now apply SAME. }
    cbv zeta. destruct len as [[f|i]|]; cbn [decConstr].
    + rewrite (ref_like camel Xn cenv a a' f A) by (apply HU; cbn [usesOf]; right; now left). destruct (refVal camel a' cenv f); cbn [bind rel]; auto. now apply rel_within.
    + destruct (integerOf r i); cbn [bind rel]; auto. now apply rel_leaving.
    + now apply B.
Qed.
End Body.
Lemma keeps_fields : forall m m', keeps nm m m' -> exists A B, allFields m = A ++ B /\ allFields m' = A ++ (nm, bytesT) :: B.
Proof.
  intros m m' H. induction H as [|u tag len cs1 l ms1 m m' ms2 cs2 H (A & B & E & E')]; [exists [], []; split; reflexivity|].
  cbn [allFields]. rewrite !flat_map_app. cbn [flat_map]. rewrite !flat_map_app. cbn [flat_map]. rewrite E, E'.
  exists (flat_map (fun c => match c with UCase _ ms => flat_map allFields ms end) cs1 ++ flat_map allFields ms1 ++ A), (B ++ flat_map allFields ms2 ++ flat_map (fun c => match c with UCase _ ms => flat_map allFields ms end) cs2).
  split; rewrite <- !app_assoc; cbn [app]; rewrite <- ?app_assoc; reflexivity.
Qed.
End Ignored.

(** C108.  Let one struct have an array of bytes [nm] without a length where another ignores the rest
    of the data, in a case of a union at any depth.  Let the receivers agree but for the array.  Then
    both accept the same data, return the same rest, report the same errors, and agree on panics and
    on whether they return.  All fields but the array agree, and the array is as it was or has some
    bytes of the data that follow each other. *)
Theorem C108_kept : forall camel os fs r p, package camel os fs r p ->
  forall s s' ms1 m m' ms2 nm, defines fs s -> defines fs s' -> scontexts s' = scontexts s ->
  members_of s = ms1 ++ m :: ms2 -> members_of s' = ms1 ++ m' :: ms2 -> keeps nm m m' ->
  forall fs0 fs0' data args, ctxValues camel r s args -> goStruct camel r s fs0 -> goStruct camel r s' fs0' -> goBytes data ->
  (forall g, g <> camel nm -> alookup g fs0 = alookup g fs0') ->
  let same (a a' : amap value) := (forall g, g <> camel nm -> alookup g a = alookup g a') /\
    (alookup (camel nm) a' = alookup (camel nm) fs0' \/ exists u w v, data = u ++ w ++ v /\ alookup (camel nm) a' = Some (VList (map VInt w))) in
  (forall fs1 rest, parses camel p s fs0 data args fs1 rest -> exists fs1', parses camel p s' fs0' data args fs1' rest /\ same fs1 fs1') /\
  (forall fs1' rest, parses camel p s' fs0' data args fs1' rest -> exists fs1, parses camel p s fs0 data args fs1 rest /\ same fs1 fs1') /\
  (forall e, fails camel p s fs0 data args e <-> fails camel p s' fs0' data args e) /\
  (forall m, panics camel p s fs0 data args m <-> panics camel p s' fs0' data args m) /\
  (neverEnds camel p s fs0 data args <-> neverEnds camel p s' fs0' data args).
Proof.
  intros camel os fs r p PK s s' ms1 m m' ms2 nm DS DS' EC EM EM' KP fs0 fs0' data args VA G G' VD AG same.
  assert (VA' : ctxValues camel r s' args) by (unfold ctxValues in *; now rewrite EC).
  pose proof (Build_validCall camel fs r s fs0 data args DS VA G VD) as VC. pose proof (Build_validCall camel fs r s' fs0' data args DS' VA' G' VD) as VC'.
  assert (C : checkStruct camel r s = true) by (eapply pk_check; eauto; now apply (defines_in fs)).
  destruct (keeps_fields nm m m' KP) as (A & B & EA & EA').
  set (key := fun f : string * type => camel (fst f)).
  assert (ND' : NoDup (map key (flat_map allFields (members_of s')))) by (eapply struct_nodup; eauto; now apply (defines_in fs)).
  assert (NI : ~ In (camel nm) (map key (flat_map allFields (members_of s)))).
  { rewrite EM', flat_map_app in ND'. cbn [flat_map] in ND'. rewrite EA', <- app_assoc, app_assoc in ND'. cbn [app] in ND'. rewrite map_app in ND'. cbn [map] in ND'. apply NoDup_remove_2 in ND'.
    rewrite <- map_app in ND'. rewrite EM, flat_map_app. cbn [flat_map]. rewrite EA. intros I. apply ND'. revert I. now rewrite <- !app_assoc. }
  assert (FR : Forall (free camel (Xn camel nm)) (ms1 ++ m :: ms2)).
  { rewrite <- EM. apply Forall_forall. intros m0 I. split.
    - intros x t J E. apply NI. rewrite <- E. apply (in_map key _ (x, t)). apply in_flat_map. eauto.
    - intros f J E X. destruct (struct_uses camel r s C m0 f I J E) as (sz & cst & Q). apply NI. rewrite <- X. exact (in_map key _ _ Q). }
  assert (NN : alookup (camel nm) fs0' <> None).
  { assert (I : In (nm, TVar (TInt 8 None) None) (flat_map allFields (members_of s'))) by (rewrite EM', flat_map_app; cbn [flat_map]; rewrite EA'; apply in_or_app; right; apply in_or_app; left; apply in_or_app; right; now left).
    destruct (goStruct_lookup camel r s' fs0' G' ND' _ _ I) as (v & -> & _). discriminate. }
  set (N := List.length data).
  set (dec := fun n => decStruct camel r n s fs0 (contextsOf s args) data). set (dec' := fun n => decStruct camel r n s' fs0' (contextsOf s' args) data).
  assert (ST : forall n, (N <= n)%nat -> rel camel nm data fs0' (dec (S n)) (dec' (S n))).
  { intros n L. unfold dec, dec'. cbn [decStruct]. replace (contextsOf s' args) with (contextsOf s args) by (unfold contextsOf; now rewrite EC). rewrite EM, EM'.
    apply members_rel; auto.
    - intros F a a' c A0 P N0. now apply member_rel.
    - exists [], []. now rewrite app_nil_r. }
  assert (SM : forall a a', agreeX (Xn camel nm) a a' -> kept camel nm data fs0' a' -> same a a').
  { intros a a' X [Y|(w & (u & v & E) & Y)]; split; auto. right. exists u, w, v. auto. }
  set (far := fun n => S (n + N)).
  assert (FS : forall n, let o := dec n in o <> OutOfFuel -> dec (far n) = o).
  { intros n o NO. eapply dec_final with (n := n); unfold far; eauto. lia. }
  assert (FS' : forall n, let o := dec' n in o <> OutOfFuel -> dec' (far n) = o).
  { intros n o NO. eapply dec_final with (n := n); unfold far; eauto. lia. }
  assert (ST' : forall n, rel camel nm data fs0' (dec (far n)) (dec' (far n))) by (intros n; apply ST; lia).
  clearbody far. unfold rel in ST'.
  split; [|split; [|split; [|split]]].
  - intros fs1 rest H. apply (parses_dec camel os fs r p PK _ _ _ _ VC) in H as [n H]. change (dec n = Ok (fs1, rest)) in H. specialize (FS n). rewrite H in FS. specialize (FS ltac:(discriminate)). specialize (ST' n). rewrite FS in ST'.
    destruct (dec' (far n)) as [[a' c']| | |] eqn:E; try contradiction. destruct ST' as (<- & X & Y). exists a'. split; auto.
    apply (parses_dec camel os fs r p PK _ _ _ _ VC'). eauto.
  - intros fs1 rest H. apply (parses_dec camel os fs r p PK _ _ _ _ VC') in H as [n H]. change (dec' n = Ok (fs1, rest)) in H. specialize (FS' n). rewrite H in FS'. specialize (FS' ltac:(discriminate)). specialize (ST' n). rewrite FS' in ST'.
    destruct (dec (far n)) as [[a c]| | |] eqn:E; try contradiction. destruct ST' as (-> & X & Y). exists a. split; auto.
    apply (parses_dec camel os fs r p PK _ _ _ _ VC). eauto.
  - intros e. rewrite (fails_dec camel os fs r p PK _ _ _ _ VC), (fails_dec camel os fs r p PK _ _ _ _ VC'). split; intros [n H]; exists (far n); specialize (ST' n).
    + change (dec n = Err e) in H. specialize (FS n). rewrite H in FS. rewrite (FS ltac:(discriminate)) in ST'. change (dec' (far n) = Err e). destruct (dec' (far n)) as [[a' c']| | |]; try contradiction. congruence.
    + change (dec' n = Err e) in H. specialize (FS' n). rewrite H in FS'. rewrite (FS' ltac:(discriminate)) in ST'. change (dec (far n) = Err e). destruct (dec (far n)) as [[a c]| | |]; try contradiction. congruence.
  - intros e. rewrite (panics_dec camel os fs r p PK _ _ _ _ VC), (panics_dec camel os fs r p PK _ _ _ _ VC'). split; intros [n H]; exists (far n); specialize (ST' n).
    + change (dec n = Panic e) in H. specialize (FS n). rewrite H in FS. rewrite (FS ltac:(discriminate)) in ST'. change (dec' (far n) = Panic e). destruct (dec' (far n)) as [[a' c']| | |]; try contradiction. congruence.
    + change (dec' n = Panic e) in H. specialize (FS' n). rewrite H in FS'. rewrite (FS' ltac:(discriminate)) in ST'. change (dec (far n) = Panic e). destruct (dec (far n)) as [[a c]| | |]; try contradiction. congruence.
  - unfold neverEnds. split; intros H n.
    + apply (run_fuel camel os fs r p PK _ _ _ _ VC'). change (dec' n = OutOfFuel). pose proof (proj1 (run_fuel camel os fs r p PK _ _ _ _ VC (far n)) (H (far n))) as Z0. change (dec (far n) = OutOfFuel) in Z0.
      specialize (ST' n). specialize (FS' n). cbv zeta in FS'. rewrite Z0 in ST'. destruct (dec' n) as [[a c]|e|e|]; auto; rewrite FS' in ST' by discriminate; contradiction.
    + apply (run_fuel camel os fs r p PK _ _ _ _ VC). change (dec n = OutOfFuel). pose proof (proj1 (run_fuel camel os fs r p PK _ _ _ _ VC' (far n)) (H (far n))) as Z0. change (dec' (far n) = OutOfFuel) in Z0.
      specialize (ST' n). specialize (FS n). cbv zeta in FS. rewrite Z0 in ST'. destruct (dec n) as [[a c]|e|e|]; auto; rewrite FS in ST' by discriminate; contradiction.
Qed.
Print Assumptions C108_kept.

(** [struct skip { u8 k; union u[k] { 1: u8 a; default: ignore; }; }] and
    [struct keep { u8 k; union u[k] { 1: u8 a; default: u8 x[]; }; }]. *)
Definition first1 := UCase (Some [mkRange (ILit 1) None]) [u8 "a"].
Definition skipU := MUnion "u" (local "k") None ([first1] ++ UCase None ([] ++ MIgnore :: []) :: []).
Definition keepU := MUnion "u" (local "k") None ([first1] ++ UCase None ([] ++ MField "x" (TVar (TInt 8 None) None) :: []) :: []).
Definition skipS := mkStruct "skip" [] (Some [u8 "k"; skipU]).
Definition keepS := mkStruct "keep" [] (Some [u8 "k"; keepU]).
Notation atI := (one [skipS; keepS]).
Lemma ignore_package : package camelX osX atI (theRes atI) (theProg atI).
Proof. apply package_of; vm_compute; reflexivity. Qed.
Example C108_case : package camelX osX atI (theRes atI) (theProg atI) /\ defines atI skipS /\ defines atI keepS /\
  members_of skipS = [u8 "k"] ++ skipU :: [] /\ members_of keepS = [u8 "k"] ++ keepU :: [] /\ keeps "x" skipU keepU /\
  (forall g, g <> camelX "x" -> alookup g (blank camelX (Constant (theRes atI)) skipS) = alookup g (blank camelX (Constant (theRes atI)) keepS)) /\
  parses camelX (theProg atI) skipS (blank camelX (Constant (theRes atI)) skipS) [2; 1; 3] [] [("K", VInt 2); ("A", VInt 0)] [] /\
  parses camelX (theProg atI) keepS (blank camelX (Constant (theRes atI)) keepS) [2; 1; 3] [] [("K", VInt 2); ("A", VInt 0); ("X", VList [VInt 1; VInt 3])] [].
Proof.
  assert (G : goBytes [2; 1; 3]) by (apply bytes_ok; vm_compute; reflexivity).
  assert (V : forall s, In s [skipS; keepS] -> validCall camelX atI (theRes atI) s (blank camelX (Constant (theRes atI)) s) [2; 1; 3] []).
  { intros s I. apply (fresh_call [skipS; keepS] s); [vm_compute; reflexivity|exact I|destruct I as [<-|[<-|[]]]; reflexivity|destruct I as [<-|[<-|[]]]; reflexivity|exact G]. }
  split; [exact ignore_package|]. split; [apply (V skipS); cbn; auto|]. split; [apply (V keepS); cbn; auto|]. split; [reflexivity|]. split; [reflexivity|]. split; [apply K_case; constructor|]. split; [|split].
  - intros g N. cbn [blank flat_map members_of skipS keepS skipU keepU first1 smembers u8 allFields app map fst snd alookup].
    destruct (String.eqb g (camelX "k")); auto. destruct (String.eqb g (camelX "a")); auto. destruct (String.eqb_spec g (camelX "x")); [contradiction|]. reflexivity.
  - apply (parses_dec camelX osX _ _ _ ignore_package _ _ _ _ (V skipS (or_introl eq_refl))). exists 9%nat. vm_compute. reflexivity.
  - apply (parses_dec camelX osX _ _ _ ignore_package _ _ _ _ (V keepS (or_intror (or_introl eq_refl)))). exists 9%nat. vm_compute. reflexivity.
Qed.
