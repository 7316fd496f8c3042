(** Property C112: cases that the tag cannot select can be left out. *)
From Coq Require Import ZArith String List Bool Lia ZifyBool ZifyNat.
From Verif Require Import Base Ast IntervalsModel InspectModel InspectSpec InspectProofs GoLang GenModel GenDecode GenCheck GenSim GenSimBody GenSimProg GenMono WireSpec WireProofs WireComplete WireFacts GenTerm FwdProofs
  PackageSpec PackageProofs PackageFacts PackageMore GenExamples GenWitness IndepSpec UnrollProofs P_Unroll PickProofs.
From Verif Require Import P_CtxCount.
Import ListNotations.
Open Scope string_scope.
Open Scope list_scope.
Open Scope Z_scope.

(** Without a case that is not taken the same case is taken. *)
Lemma choice_without : forall r x cs1 l ms cs2,
  match l with Some l2 => inList r x l2 = false | None => exists l0 ms0, In (UCase (Some l0) ms0) (cs1 ++ cs2) /\ inList r x l0 = true end ->
  choice r x (cs1 ++ UCase l ms :: cs2) (cs1 ++ UCase l ms :: cs2) = choice r x (cs1 ++ cs2) (cs1 ++ cs2).
Proof.
  intros r x cs1 l ms cs2 H.
  assert (PE : pickCase r x (cs1 ++ UCase l ms :: cs2) = pickCase r x (cs1 ++ cs2)).
  { clear - H. assert (HL : match l with Some l2 => inList r x l2 = false | None => True end) by (destruct l; auto). clear H.
    induction cs1 as [|[[l1|] k] cs1 IH]; cbn [app pickCase]; auto.
    - destruct l as [l|]; auto. now rewrite HL.
    - now rewrite IH. }
  unfold choice. rewrite PE. destruct l as [l|].
  - destruct (pickCase r x (cs1 ++ cs2)); auto. clear. induction cs1 as [|[[l1|] k] cs1 IH]; cbn [app defaultCase]; auto.
  - destruct H as (l0 & ms0 & I & IL). assert (NE : pickCase r x (cs1 ++ cs2) <> None).
    { clear PE. induction (cs1 ++ cs2) as [|[[l1|] k] cs IH]; [destruct I| |]; cbn [pickCase].
      - destruct (inList r x l1) eqn:E; [discriminate|]. destruct I as [I|I]; [injection I as -> ->; congruence|auto].
      - destruct I as [I|I]; [discriminate|auto]. }
    destruct (pickCase r x (cs1 ++ cs2)); [reflexivity|contradiction].
Qed.

(** An integer that was read fits its width and meets its constraint. *)
Lemma integer_read : forall camel r n cenv (dat : bytes) ms nm sz cst fs c fs1 c1, In (MField nm (TInt sz cst)) ms -> NoDup (keys camel ms) -> alookup (camel nm) fs <> None -> all_bytes c -> goodSize sz = true ->
  decMembers camel r (decCall camel r n) n cenv (blen dat) ms fs c = Ok (fs1, c1) ->
  exists x, alookup (camel nm) fs1 = Some (VInt x) /\ 0 <= x < 2 ^ sz /\ match cst with Some l => in_list (Constant r) l x | None => True end.
Proof.
  intros camel r n cenv dat ms nm sz cst fs c fs1 c1 I ND NN AB GS H. apply in_split in I as (pre & post & ->). rewrite members_app in H.
  apply bind_ok in H as ([fs2 c2] & H1 & H). cbn [decMembers decMember decType decBase] in H. apply bind_ok in H as ([fs3 c3] & H2 & H).
  apply bind_ok in H2 as ([v c4] & H2 & E). injection E as <- <-. unfold decInt in H2. destruct (blen c2 <? sz / 8) eqn:BL; [discriminate|].
  set (w := firstn (Z.to_nat (sz / 8)) c2) in *. destruct (match cst with None => true | Some l => inList r (be w) l end) eqn:IL; [|discriminate]. injection H2 as <- <-.
  unfold keys in ND. rewrite flat_map_app, map_app in ND. cbn [flat_map allFields app map fst] in ND.
  destruct (tame_members camel r (decCall camel r n) (leaves_call camel r n) n cenv dat pre fs c fs2 c2 H1) as [[q EW] _].
  assert (AW : all_bytes w) by (apply all_bytes_firstn; rewrite EW in AB; unfold all_bytes in *; now apply Forall_app in AB).
  assert (SZ : sz = 8 \/ sz = 16 \/ sz = 32 \/ sz = 64) by (unfold goodSize in GS; lia). assert (PZ : 0 <= sz / 8) by (apply Z.div_pos; lia).
  exists (be w). split; [|split].
  - rewrite (members_keep camel r (decCall camel r n) n cenv dat _ _ _ _ _ H).
    + rewrite alookup_assign, String.eqb_refl. rewrite (members_keep camel r (decCall camel r n) n cenv dat _ _ _ _ _ H1); [destruct (alookup (camel nm) fs); congruence|].
      intros J. apply (NoDup_app_disj _ _ _ ND J). now left.
    + apply NoDup_app_r in ND. inversion ND; auto.
  - pose proof (bigEndian_bound _ _ (bigEndian_be w AW)) as RB. assert (LW : blen w = sz / 8) by (unfold w, blen; rewrite firstn_length; unfold blen in BL; lia). rewrite LW in RB.
    destruct SZ as [->|[->|[->| ->]]]; exact RB.
  - destruct cst; auto. now apply inList_spec.
Qed.

(** C112.  Let a struct have a union whose tag is an earlier integer or a field of a context.  Let a
    second struct lack one of the cases, one that none of the values of the tag selects, that is,
    those of its width that meet its constraint if there is one: its list has none of them, or it is the default and other lists have them all.  Then
    both parse alike in every respect, and the fields of the case are left as they were. *)
Theorem C112_unreached : forall camel os fs r p, package camel os fs r p ->
  forall s s' ms1 u tag len cs1 l ms cs2 ms2, defines fs s -> defines fs s' -> scontexts s' = scontexts s ->
  members_of s = ms1 ++ MUnion u tag len (cs1 ++ UCase l ms :: cs2) :: ms2 -> members_of s' = ms1 ++ MUnion u tag len (cs1 ++ cs2) :: ms2 ->
  forall fs0 fs0' data args, ctxValues camel r s args -> goStruct camel r s fs0 -> goStruct camel r s' fs0' -> goBytes data ->
  let idle x := match l with Some l2 => ~ in_list (Constant r) l2 x
    | None => exists l0 ms0, In (UCase (Some l0) ms0) (cs1 ++ cs2) /\ in_list (Constant r) l0 x end in
  (rscope tag = "" /\ exists sz cst, In (MField (rname tag) (TInt sz cst)) ms1 /\ forall x, 0 <= x < 2 ^ sz -> match cst with Some lt => in_list (Constant r) lt x | None => True end -> idle x) \/
  (rscope tag <> "" /\ exists v, refers camel (contextsOf s args) [] tag v /\ idle v) ->
  let own g := exists x t, In (x, t) (flat_map allFields ms) /\ g = camel x in
  (forall g, ~ own g -> alookup g fs0 = alookup g fs0') ->
  let same (a a' : amap value) := (forall g, ~ own g -> alookup g a = alookup g a') /\ forall g, own g -> alookup g a = alookup g fs0 in
  (forall fs1 rest, parses camel p s fs0 data args fs1 rest -> exists fs1', parses camel p s' fs0' data args fs1' rest /\ same fs1 fs1') /\
  (forall fs1' rest, parses camel p s' fs0' data args fs1' rest -> exists fs1, parses camel p s fs0 data args fs1 rest /\ same fs1 fs1') /\
  (forall e, fails camel p s fs0 data args e <-> fails camel p s' fs0' data args e) /\
  (forall m, panics camel p s fs0 data args m <-> panics camel p s' fs0' data args m) /\
  (neverEnds camel p s fs0 data args <-> neverEnds camel p s' fs0' data args).
Proof.
  intros camel os fs r p PK s s' ms1 u tag len cs1 l ms cs2 ms2 DS DS' EC EM EM' fs0 fs0' data args VA G G' VD idle ONLY own AG same.
  assert (VA' : ctxValues camel r s' args) by (unfold ctxValues in *; now rewrite EC).
  pose proof (Build_validCall camel fs r s fs0 data args DS VA G VD) as VC. pose proof (Build_validCall camel fs r s' fs0' data args DS' VA' G' VD) as VC'.
  assert (C' : checkStruct camel r s' = true) by (eapply pk_check; eauto; now apply (defines_in fs)).
  assert (C : checkStruct camel r s = true) by (eapply pk_check; eauto; now apply (defines_in fs)).
  set (key := fun f : string * type => camel (fst f)).
  set (inC := fun cs => flat_map (fun c => match c with UCase _ ms => flat_map allFields ms end) cs).
  set (L := flat_map allFields ms1 ++ inC cs1). set (R := inC cs2 ++ flat_map allFields ms2).
  assert (EF : flat_map allFields (members_of s) = L ++ flat_map allFields ms ++ R).
  { rewrite EM, flat_map_app. cbn [flat_map allFields]. rewrite flat_map_app. cbn [flat_map]. unfold L, R, inC. rewrite <- !app_assoc. reflexivity. }
  assert (EF' : flat_map allFields (members_of s') = L ++ R).
  { rewrite EM', flat_map_app. cbn [flat_map allFields]. rewrite flat_map_app. unfold L, R, inC. rewrite <- !app_assoc. reflexivity. }
  assert (ND : NoDup (map key (flat_map allFields (members_of s)))) by (eapply struct_nodup; eauto; now apply (defines_in fs)).
  assert (OUT : forall f, In f (L ++ R) -> ~ own (key f)).
  { intros f I (x & t & J & E). rewrite EF, !map_app in ND. assert (K : In (key f) (map key (flat_map allFields ms))) by (rewrite E; exact (in_map key _ _ J)).
    apply in_app_or in I as [I|I].
    - apply (NoDup_app_disj _ _ _ ND (in_map key _ _ I)). apply in_or_app. now left.
    - apply NoDup_app_r in ND. exact (NoDup_app_disj _ _ _ ND K (in_map key _ _ I)). }
  assert (USE : forall f, In f (flat_map usesOf (members_of s')) -> rscope f = "" -> ~ own (camel (rname f))).
  { intros f I E. apply in_flat_map in I as (m0 & I & J). destruct (struct_uses camel r s' C' m0 f I J E) as (z & cst & K). rewrite EF' in K. exact (OUT _ K). }
  assert (FREE : forall q, incl (flat_map allFields q) (L ++ R) -> incl (flat_map usesOf q) (flat_map usesOf (members_of s')) -> Forall (free camel own) q).
  { intros q I J. apply Forall_forall. intros m IM. split.
    - intros x t K. apply (OUT (x, t)). apply I. apply in_flat_map. eauto.
    - intros f K. apply USE. apply J. apply in_flat_map. eauto. }
  set (U' := MUnion u tag len (cs1 ++ cs2)) in *.
  assert (F1 : Forall (free camel own) ms1).
  { apply FREE; intros y I; [unfold L; rewrite <- app_assoc; apply in_or_app; now left|rewrite EM', flat_map_app; apply in_or_app; now left]. }
  assert (F2 : Forall (free camel own) ms2).
  { apply FREE; intros y I; [apply in_or_app; right; unfold R; apply in_or_app; now right|rewrite EM', flat_map_app; apply in_or_app; right; cbn [flat_map]; apply in_or_app; now right]. }
  assert (UU : incl (usesOf U') (flat_map usesOf (members_of s'))) by (intros y I; rewrite EM', flat_map_app; apply in_or_app; right; cbn [flat_map]; apply in_or_app; now left).
  assert (FO : forall l0 ms0, In (UCase l0 ms0) (cs1 ++ cs2) -> Forall (free camel own) ms0).
  { intros l0 ms0 I. apply FREE; intros y J.
    - assert (Q : forall q, In (UCase l0 ms0) q -> In y (inC q)) by (intros q IQ; apply in_flat_map; exists (UCase l0 ms0); auto).
      unfold L, R. apply in_app_or in I as [I|I]; apply in_or_app; [left|right]; apply in_or_app; [right|left]; auto.
    - apply UU. unfold U'. cbn [usesOf]. right. apply in_or_app. right. apply in_flat_map. exists (UCase l0 ms0). auto. }
  assert (T1 : rscope tag = "" -> ~ own (camel (rname tag))) by (apply USE; apply UU; now left).
  assert (T2 : forall f, len = Some (LRef f) -> rscope f = "" -> ~ own (camel (rname f))) by (intros f E; apply USE; apply UU; unfold U'; rewrite E; right; now left).
  assert (AX : agreeX own fs0 fs0') by exact AG.
  set (cenv := contextsOf s args).
  set (dec := fun n => decStruct camel r n s fs0 (contextsOf s args) data). set (dec' := fun n => decStruct camel r n s' fs0' (contextsOf s' args) data).
  assert (ST : forall n, like own fs0 fs0' (dec (S n)) (dec' (S n))).
  { intros n. unfold dec, dec'. cbn [decStruct]. replace (contextsOf s' args) with (contextsOf s args) by (unfold contextsOf; now rewrite EC). fold cenv. rewrite EM, EM', !members_app.
    pose proof (members_like camel r own (decCall camel r n) n cenv data ms1 F1 fs0 fs0' data AX) as L1.
    assert (TG : forall a c x, decMembers camel r (decCall camel r n) n cenv (blen data) ms1 fs0 data = Ok (a, c) -> refVal camel a cenv tag = Ok x -> idle x).
    { intros a c x E RX. apply refVal_refers in RX. destruct ONLY as [(SC & sz & cst & IM & ID)|(SC & v & RV & ID)].
      - assert (IF : In (rname tag, TInt sz cst) (flat_map allFields (members_of s))) by (rewrite EM, flat_map_app; apply in_or_app; left; apply in_flat_map; exists (MField (rname tag) (TInt sz cst)); split; [exact IM|now left]).
        destruct (goStruct_lookup camel r s fs0 G ND _ _ IF) as (v0 & E0 & _).
        destruct (integer_read camel r n cenv data ms1 (rname tag) sz cst fs0 data a c IM) as (y & EY & RY & IY); auto.
        + unfold keys. rewrite EF in ND. unfold L in ND. rewrite <- app_assoc, map_app in ND. now apply NoDup_app_l in ND.
        + congruence.
        + exact (proj1 VD).
        + destruct (field_pos camel r s C (rname tag) _ IF) as [kk CK]. cbn [checkType checkBase] in CK. unfold checkInt in CK. now apply andb_true_iff in CK.
        + unfold refers in RX. rewrite SC in RX. cbn [String.eqb] in RX. rewrite EY in RX. injection RX as <-. now apply ID.
      - apply (refers_agree camel cenv [] a) in RV; [|intros Q; contradiction]. apply refVal_refers in RV. apply refVal_refers in RX. rewrite RV in RX. now injection RX as <-. }
    destruct (decMembers camel r (decCall camel r n) n cenv (blen data) ms1 fs0 data) as [[a c]|e|e|] eqn:E1, (decMembers camel r (decCall camel r n) n cenv (blen data) ms1 fs0' data) as [[a' c']|e'|e'|] eqn:E1'; cbn [like] in L1; try contradiction; cbn [bind like]; auto.
    destruct L1 as (<- & A1 & K1). specialize (TG a c). cbn [decMembers]. unfold U'. rewrite !decMember_union.
    assert (B : forall c, like own a a' (x <- refVal camel a cenv tag ;; decPick camel r (decCall camel r n) n cenv data (cs1 ++ UCase l ms :: cs2) x (cs1 ++ UCase l ms :: cs2) a c)
      (x <- refVal camel a' cenv tag ;; decPick camel r (decCall camel r n) n cenv data (cs1 ++ cs2) x (cs1 ++ cs2) a' c)).
    { intros c0. rewrite <- (ref_like camel own cenv a a' tag A1 T1). destruct (refVal camel a cenv tag) as [x|e|e|]; cbn [bind like]; auto. rewrite !decPick_choice.
      rewrite choice_without.
      - destruct (choice r x (cs1 ++ cs2) (cs1 ++ cs2)) as [ms0|] eqn:CH; [|cbn [like]; auto]. destruct (choice_in r x _ _ CH) as [l0 I]. apply members_like; auto. eapply FO; eauto.
      - specialize (TG x eq_refl eq_refl). unfold idle in TG. destruct l as [l2|].
        + destruct (inList r x l2) eqn:IL; auto. exfalso. apply TG. now apply inList_spec.
        + destruct TG as (l0 & ms0 & I & IL). exists l0, ms0. split; auto. now apply inList_spec. }
    assert (LB : forall o o', like own a a' o o' -> like own fs0 fs0' ('(b, c1) <- o ;; decMembers camel r (decCall camel r n) n cenv (blen data) ms2 b c1) ('(b, c1) <- o' ;; decMembers camel r (decCall camel r n) n cenv (blen data) ms2 b c1)).
    { intros o o' LO. assert (Q : like own a a' ('(b, c1) <- o ;; decMembers camel r (decCall camel r n) n cenv (blen data) ms2 b c1) ('(b, c1) <- o' ;; decMembers camel r (decCall camel r n) n cenv (blen data) ms2 b c1)).
      { apply like_bind; auto. intros b b' c1 AB _. now apply members_like. }
      unfold like in *. destruct (bind o _) as [[b c1]| | |], (bind o' _) as [[b' c1']| | |]; auto. destruct Q as (Q1 & Q2 & Q3). split; auto. split; auto. intros g Y. destruct (K1 g Y) as [<- <-]. now apply Q3. }
    apply LB. cbv zeta. destruct len as [[f|i]|]; cbn [decConstr].
    - rewrite (ref_like camel own cenv a a' f A1 (T2 f eq_refl)). apply like_same. intros k. now apply like_within.
    - apply like_same. intros k. now apply like_leaving.
    - apply B. }
  assert (SM : forall a a', agreeX own a a' -> (forall g, own g -> alookup g a = alookup g fs0 /\ alookup g a' = alookup g fs0') -> same a a').
  { intros a a' Y K. split; [exact Y|]. intros g Q. now apply K. }
  set (far := fun n => S n).
  assert (FS : forall n, let o := dec n in o <> OutOfFuel -> dec (far n) = o).
  { intros n o NO. eapply dec_final with (n := n); unfold far; eauto. }
  assert (FS' : forall n, let o := dec' n in o <> OutOfFuel -> dec' (far n) = o).
  { intros n o NO. eapply dec_final with (n := n); unfold far; eauto. }
  assert (ST' : forall n, like own fs0 fs0' (dec (far n)) (dec' (far n))) by (intros n; apply ST).
  clearbody far. unfold like in ST'.
  split; [|split; [|split; [|split]]].
  - intros fs1 rest H. apply (parses_dec camel os fs r p PK _ _ _ _ VC) in H as [n H]. change (dec n = Ok (fs1, rest)) in H. specialize (FS n). rewrite H in FS. specialize (FS ltac:(discriminate)). specialize (ST' n). rewrite FS in ST'.
    destruct (dec' (far n)) as [[a' c']| | |] eqn:E; try contradiction. destruct ST' as (<- & XA & Y). exists a'. split; auto.
    apply (parses_dec camel os fs r p PK _ _ _ _ VC'). eauto.
  - intros fs1 rest H. apply (parses_dec camel os fs r p PK _ _ _ _ VC') in H as [n H]. change (dec' n = Ok (fs1, rest)) in H. specialize (FS' n). rewrite H in FS'. specialize (FS' ltac:(discriminate)). specialize (ST' n). rewrite FS' in ST'.
    destruct (dec (far n)) as [[a c]| | |] eqn:E; try contradiction. destruct ST' as (-> & XA & Y). exists a. split; auto.
    apply (parses_dec camel os fs r p PK _ _ _ _ VC). eauto.
  - intros e. rewrite (fails_dec camel os fs r p PK _ _ _ _ VC), (fails_dec camel os fs r p PK _ _ _ _ VC'). split; intros [n H]; exists (far n); specialize (ST' n).
    + change (dec n = Err e) in H. specialize (FS n). rewrite H in FS. rewrite (FS ltac:(discriminate)) in ST'. change (dec' (far n) = Err e). destruct (dec' (far n)) as [[a' c']| | |]; try contradiction. congruence.
    + change (dec' n = Err e) in H. specialize (FS' n). rewrite H in FS'. rewrite (FS' ltac:(discriminate)) in ST'. change (dec (far n) = Err e). destruct (dec (far n)) as [[a c]| | |]; try contradiction. congruence.
  - intros e. rewrite (panics_dec camel os fs r p PK _ _ _ _ VC), (panics_dec camel os fs r p PK _ _ _ _ VC'). split; intros [n H]; exists (far n); specialize (ST' n).
    + change (dec n = Panic e) in H. specialize (FS n). rewrite H in FS. rewrite (FS ltac:(discriminate)) in ST'. change (dec' (far n) = Panic e). destruct (dec' (far n)) as [[a' c']| | |]; try contradiction. congruence.
    + change (dec' n = Panic e) in H. specialize (FS' n). rewrite H in FS'. rewrite (FS' ltac:(discriminate)) in ST'. change (dec (far n) = Panic e). destruct (dec (far n)) as [[a c]| | |]; try contradiction. congruence.
  - unfold neverEnds. split; intros H n.
    + apply (run_fuel camel os fs r p PK _ _ _ _ VC'). change (dec' n = OutOfFuel). pose proof (proj1 (run_fuel camel os fs r p PK _ _ _ _ VC (far n)) (H (far n))) as Z0. change (dec (far n) = OutOfFuel) in Z0.
      specialize (ST' n). specialize (FS' n). cbv zeta in FS'. rewrite Z0 in ST'. destruct (dec' n) as [[a c]|e|e|]; auto; rewrite FS' in ST' by discriminate; contradiction.
    + apply (run_fuel camel os fs r p PK _ _ _ _ VC). change (dec n = OutOfFuel). pose proof (proj1 (run_fuel camel os fs r p PK _ _ _ _ VC' (far n)) (H (far n))) as Z0. change (dec' (far n) = OutOfFuel) in Z0.
      specialize (ST' n). specialize (FS n). cbv zeta in FS. rewrite Z0 in ST'. destruct (dec n) as [[a c]|e|e|]; auto; rewrite FS in ST' by discriminate; contradiction.
Qed.
Print Assumptions C112_unreached.

(** [struct more { u8 k IN [1..2]; union u[k] { 1: u8 a; 2: u16 b; 3: u32 d; default: fail; }; u8 z; }] and
    [struct less { u8 k IN [1..2]; union u[k] { 1: u8 a; 2: u16 b; default: fail; }; u8 z; }]. *)
Definition dcK := MField "k" (TInt 8 (Some [mkRange (ILit 1) (Some (ILit 2))])).
Definition dcAB := [UCase (Some [mkRange (ILit 1) None]) [u8 "a"]; UCase (Some [mkRange (ILit 2) None]) [MField "b" (TInt 16 None)]].
Definition dcM := [MField "d" (TInt 32 None)].
Definition dcMore := mkStruct "more" [] (Some ([dcK] ++ MUnion "u" (local "k") None (dcAB ++ UCase (Some [mkRange (ILit 3) None]) dcM :: [UCase None [MFail]]) :: [u8 "z"])).
Definition dcLess := mkStruct "less" [] (Some ([dcK] ++ MUnion "u" (local "k") None (dcAB ++ [UCase None [MFail]]) :: [u8 "z"])).
Notation atD := (one [dcMore; dcLess]).
Lemma dc_package : package camelX osX atD (theRes atD) (theProg atD).
Proof. apply package_of; vm_compute; reflexivity. Qed.
Example C112_case : package camelX osX atD (theRes atD) (theProg atD) /\ defines atD dcMore /\ defines atD dcLess /\
  (forall x, in_list (Constant (theRes atD)) [mkRange (ILit 1) (Some (ILit 2))] x -> ~ in_list (Constant (theRes atD)) [mkRange (ILit 3) None] x) /\
  (forall g, ~ (exists x t, In (x, t) (flat_map allFields dcM) /\ g = camelX x) -> alookup g (blank camelX (Constant (theRes atD)) dcMore) = alookup g (blank camelX (Constant (theRes atD)) dcLess)) /\
  parses camelX (theProg atD) dcMore (blank camelX (Constant (theRes atD)) dcMore) [2; 1; 3; 9; 5] [] [("K", VInt 2); ("A", VInt 0); ("B", VInt 259); ("D", VInt 0); ("Z", VInt 9)] [5] /\
  parses camelX (theProg atD) dcLess (blank camelX (Constant (theRes atD)) dcLess) [2; 1; 3; 9; 5] [] [("K", VInt 2); ("A", VInt 0); ("B", VInt 259); ("Z", VInt 9)] [5].
Proof.
  assert (G : goBytes [2; 1; 3; 9; 5]) by (apply bytes_ok; vm_compute; reflexivity).
  assert (V : forall s, In s [dcMore; dcLess] -> validCall camelX atD (theRes atD) s (blank camelX (Constant (theRes atD)) s) [2; 1; 3; 9; 5] []).
  { intros s I. apply (fresh_call [dcMore; dcLess] s); [vm_compute; reflexivity|exact I|destruct I as [<-|[<-|[]]]; reflexivity|destruct I as [<-|[<-|[]]]; reflexivity|exact G]. }
  split; [exact dc_package|]. split; [apply (V dcMore); cbn; auto|]. split; [apply (V dcLess); cbn; auto|]. split; [|split; [|split]].
  - intros x I J. apply inList_spec in I. apply inList_spec in J. cbn in I, J. lia.
  - intros g N. destruct (String.eqb_spec g (camelX "d")) as [->|ND]; [exfalso; apply N; exists "d", (TInt 32 None); split; [now left|reflexivity]|].
    cbn [blank flat_map members_of dcMore dcLess dcAB dcM dcK smembers u8 allFields app map fst snd alookup].
    destruct (String.eqb g (camelX "k")); auto. destruct (String.eqb g (camelX "a")); auto. destruct (String.eqb g (camelX "b")); auto. destruct (String.eqb_spec g (camelX "d")); [contradiction|]. reflexivity.
  - apply (parses_dec camelX osX _ _ _ dc_package _ _ _ _ (V dcMore (or_introl eq_refl))). exists 9%nat. vm_compute. reflexivity.
  - apply (parses_dec camelX osX _ _ _ dc_package _ _ _ _ (V dcLess (or_intror (or_introl eq_refl)))). exists 9%nat. vm_compute. reflexivity.
Qed.

(** [struct two { u8 k; union u[k] { 0..127: u8 a; 128..255: u16 b; default: fail; }; }] and the same without the default. *)
Definition dcHalves := [UCase (Some [mkRange (ILit 0) (Some (ILit 127))]) [u8 "a"]; UCase (Some [mkRange (ILit 128) (Some (ILit 255))]) [MField "b" (TInt 16 None)]].
Definition dcDef := mkStruct "more" [] (Some ([u8 "k"] ++ MUnion "u" (local "k") None (dcHalves ++ UCase None [MFail] :: []) :: [])).
Definition dcNoDef := mkStruct "less" [] (Some ([u8 "k"] ++ MUnion "u" (local "k") None (dcHalves ++ []) :: [])).
Notation atE := (one [dcDef; dcNoDef]).
Example C112_default : package camelX osX atE (theRes atE) (theProg atE) /\ defines atE dcDef /\ defines atE dcNoDef /\
  blank camelX (Constant (theRes atE)) dcDef = blank camelX (Constant (theRes atE)) dcNoDef /\
  forall x, 0 <= x < 2 ^ 8 -> exists l0 ms0, In (UCase (Some l0) ms0) (dcHalves ++ []) /\ in_list (Constant (theRes atE)) l0 x.
Proof.
  split; [apply package_of; vm_compute; reflexivity|]. split; [split; [reflexivity|]; eexists; split; [left; reflexivity|now left]|]. split; [split; [reflexivity|]; eexists; split; [left; reflexivity|right; now left]|]. split; [reflexivity|].
  intros x B. destruct (Z.leb_spec x 127).
  - exists [mkRange (ILit 0) (Some (ILit 127))], [u8 "a"]. split; [now left|]. apply inList_spec. cbn. lia.
  - exists [mkRange (ILit 128) (Some (ILit 255))], [MField "b" (TInt 16 None)]. split; [right; now left|]. apply inList_spec. cbn. lia.
Qed.
