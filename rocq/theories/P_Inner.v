(** Property C110: a constraint inside a union is a filter, too. *)
From Coq Require Import ZArith String List Bool Lia ZifyBool ZifyNat.
From Verif Require Import Base Ast IntervalsModel InspectModel InspectSpec InspectProofs GoLang GenModel GenDecode GenCheck GenSim GenSimBody GenSimProg GenMono WireSpec WireProofs WireComplete WireFacts GenTerm FwdProofs
  PackageSpec PackageProofs PackageFacts PackageMore GenExamples GenWitness IndepSpec UnrollProofs P_Unroll PickProofs WithinSpec.
From Verif Require P_Within.
Import ListNotations.
Open Scope string_scope.
Open Scope list_scope.
Open Scope Z_scope.

Notation violated := "integer constraint violated".

Section Inner.
Variable camel : string -> string.
Variable r : resolver.
Variables (nm : string) (sz : Z) (l : intlist).
Variable n : nat.
Variable cenv : amap value.
Variable dat : bytes.
Notation dcall := (decCall camel r n).
Notation decM := (decMember camel r dcall n cenv (blen dat)).
Notation decMs := (decMembers camel r dcall n cenv (blen dat)).
Notation F := (camel nm).
Notation h := (MField nm (TInt sz (Some l))).
Notation h' := (MField nm (TInt sz None)).
Definition good (a : amap value) : Prop := exists x, alookup F a = Some (VInt x) /\ inList r x l = true.
Definition bad (a : amap value) : Prop := exists x, alookup F a = Some (VInt x) /\ inList r x l = false.
(** The same, or refused for the constraint. *)
Definition sifts (a : amap value) (o o' : outcome (amap value * bytes)) : Prop :=
  (o = o' /\ forall b c, o = Ok (b, c) -> alookup F b = alookup F a \/ good b) \/ (o = Err violated /\ forall b c, o' = Ok (b, c) -> bad b).
Lemma sifts_same : forall a o, (forall b c, o = Ok (b, c) -> alookup F b = alookup F a) -> sifts a o o.
Proof. intros a o H. left. split; auto. intros b c E. left. eauto. Qed.
Lemma sifts_members : forall ms a c, ~ In F (keys camel ms) -> sifts a (decMs ms a c) (decMs ms a c).
Proof. intros ms a c N. apply sifts_same. intros b c1 E. exact (members_keep camel r dcall n cenv dat ms a c b c1 E F N). Qed.
Lemma sifts_within : forall a k c f f', (forall c, sifts a (f c) (f' c)) -> sifts a (decWithin k c f) (decWithin k c f').
Proof.
  intros a k c f f' H. unfold decWithin. destruct (blen c <? k); [apply sifts_same; discriminate|]. destruct (k <? 0); [apply sifts_same; discriminate|].
  destruct (H (firstn (Z.to_nat k) c)) as [[E K]|[E K]].
  - left. rewrite E in *. split; auto. intros b c1 E1. destruct (f' _) as [[b' c1']| | |]; cbn [bind] in E1; try discriminate. destruct (0 <? blen c1'); [discriminate|]. injection E1 as <- <-. eauto.
  - right. rewrite E. split; auto. intros b c1 E1. destruct (f' _) as [[b' c1']| | |]; cbn [bind] in E1; try discriminate. destruct (0 <? blen c1'); [discriminate|]. injection E1 as <- <-. eauto.
Qed.
Lemma sifts_leaving : forall a k c f f', (forall c, sifts a (f c) (f' c)) -> sifts a (decLeaving k c f) (decLeaving k c f').
Proof. intros a k c f f' H. unfold decLeaving. destruct (k <? 0); [apply sifts_same; discriminate|]. destruct (blen c <? k); [apply sifts_same; discriminate|]. now apply sifts_within. Qed.

Lemma keys_app : forall ms ms', keys camel (ms ++ ms') = keys camel ms ++ keys camel ms'.
Proof. intros. unfold keys. now rewrite flat_map_app, map_app. Qed.
Lemma keys_cons : forall m ms, keys camel (m :: ms) = keys camel [m] ++ keys camel ms.
Proof. intros. unfold keys. cbn [flat_map]. now rewrite app_nil_r, map_app. Qed.
Lemma mid : forall (A B C : list string) x, NoDup (A ++ B ++ C) -> In x B -> ~ In x A /\ ~ In x C /\ NoDup B.
Proof.
  intros A B C x ND I. pose proof (NoDup_app_r _ _ ND) as ND2. split; [|split].
  - intros J. apply (NoDup_app_disj _ _ _ ND J). apply in_or_app. auto.
  - intros J. exact (NoDup_app_disj _ _ _ ND2 I J).
  - exact (NoDup_app_l _ _ ND2).
Qed.
Lemma inside_key : forall m m', within h h' m m' -> In F (keys camel [m]).
Proof.
  intros m m' W. destruct (P_Within.within_fields _ _ _ _ W) as (A & B & E & _). unfold keys. cbn [flat_map]. rewrite app_nil_r, E. apply in_map_iff. exists (nm, TInt sz (Some l)). split; auto.
  apply in_or_app. right. now left.
Qed.
Lemma members_sift : forall m m' ms1 ms2, within h h' m m' ->
  (NoDup (keys camel [m]) -> forall a c, alookup F a <> None -> sifts a (decM m a c) (decM m' a c)) ->
  NoDup (keys camel (ms1 ++ m :: ms2)) -> forall a c, alookup F a <> None -> sifts a (decMs (ms1 ++ m :: ms2) a c) (decMs (ms1 ++ m' :: ms2) a c).
Proof.
  intros m m' ms1 ms2 W H ND a c NN. rewrite keys_app, keys_cons in ND. destruct (mid _ _ _ F ND (inside_key m m' W)) as (N1 & N2 & ND1).
  rewrite !members_app. destruct (decMs ms1 a c) as [[a1 c1]|e|e|] eqn:E1; cbn [bind]; try (apply sifts_same; discriminate).
  pose proof (members_keep camel r dcall n cenv dat _ _ _ _ _ E1 F N1) as K1. cbn [decMembers].
  assert (NN1 : alookup F a1 <> None) by congruence. destruct (H ND1 a1 c1 NN1) as [[E K]|[E K]].
  - rewrite <- E. left. split; auto. intros b c3 E3. destruct (decM m a1 c1) as [[a2 c2]| | |] eqn:E2; cbn [bind] in E3; try discriminate.
    pose proof (members_keep camel r dcall n cenv dat _ _ _ _ _ E3 F N2) as K2. destruct (K _ _ eq_refl) as [Q|(x & Q & G)]; [left; congruence|right; exists x; split; congruence].
  - rewrite E. cbn [bind]. right. split; auto. intros b c3 E3. destruct (decM m' a1 c1) as [[a2 c2]| | |] eqn:E2; cbn [bind] in E3; try discriminate.
    pose proof (members_keep camel r dcall n cenv dat _ _ _ _ _ E3 F N2) as K2. destruct (K _ _ eq_refl) as (x & Q & G). exists x. split; congruence.
Qed.
Notation inCases cs := (flat_map (fun c => match c with UCase _ ms => flat_map allFields ms end) cs).
Lemma member_sift : forall m m', within h h' m m' -> NoDup (keys camel [m]) -> forall a c, alookup F a <> None -> sifts a (decM m a c) (decM m' a c).
Proof.
  intros m m' W. induction W as [|u tag len cs1 lb ms1 m m' ms2 cs2 W IH]; intros ND a c NN.
  - cbn [decMember decType decBase]. unfold decInt. destruct (blen c <? sz / 8); cbn [bind]; [apply sifts_same; discriminate|].
    set (x := be _). destruct (inList r x l) eqn:IL; cbn [bind].
    + left. split; auto. intros b c1 E. injection E as <- <-. right. exists x. rewrite alookup_assign, String.eqb_refl. destruct (alookup F a); [auto|congruence].
    + right. split; auto. intros b c1 E. injection E as <- <-. exists x. rewrite alookup_assign, String.eqb_refl. destruct (alookup F a); [auto|congruence].
  - rewrite !decMember_union. set (ms := ms1 ++ m :: ms2) in *. set (ms' := ms1 ++ m' :: ms2) in *. set (cs := cs1 ++ UCase lb ms :: cs2) in *. set (cs' := cs1 ++ UCase lb ms' :: cs2) in *.
    set (key := fun f : string * type => camel (fst f)).
    assert (ND1 : NoDup (map key (inCases cs1) ++ keys camel ms ++ map key (inCases cs2))).
    { unfold keys in ND. cbn [flat_map allFields] in ND. rewrite app_nil_r in ND. unfold cs in ND. rewrite flat_map_app in ND. cbn [flat_map] in ND. rewrite !map_app in ND. exact ND. }
    assert (IM : In F (keys camel ms)) by (unfold ms; rewrite keys_app, keys_cons; apply in_or_app; right; apply in_or_app; left; now apply (inside_key m m')).
    destruct (mid _ _ _ F ND1 IM) as (N1 & N2 & ND2).
    assert (OT : forall l0 ms0, In (UCase l0 ms0) (cs1 ++ cs2) -> ~ In F (keys camel ms0)).
    { intros l0 ms0 I J. unfold keys in J. apply in_map_iff in J as (f & EF & J). assert (Q : forall q, In (UCase l0 ms0) q -> In F (map key (inCases q))).
      { intros q IQ. apply in_map_iff. exists f. split; auto. apply in_flat_map. exists (UCase l0 ms0). auto. }
      apply in_app_or in I as [I|I]; auto. }
    assert (B : forall c, sifts a (x <- refVal camel a cenv tag ;; decPick camel r dcall n cenv dat cs x cs a c) (x <- refVal camel a cenv tag ;; decPick camel r dcall n cenv dat cs' x cs' a c)).
    { intros c0. destruct (refVal camel a cenv tag) as [x|e|e|]; cbn [bind]; try (apply sifts_same; discriminate). rewrite !decPick_choice.
      destruct (P_Within.choice_cases r x cs1 lb ms ms' cs2) as [[E E']|[(l0 & ms0 & I & E & E')|[E E']]]; fold cs in E; fold cs' in E'; rewrite E, E'.
      - now apply members_sift.
      - apply sifts_members. eauto.
      - apply sifts_same. intros b c1 Q. now injection Q as <- <-. }
    cbv zeta. destruct len as [[f|i]|]; cbn [decConstr].
    + destruct (refVal camel a cenv f); cbn [bind]; try (apply sifts_same; discriminate). now apply sifts_within.
    + destruct (integerOf r i); cbn [bind]; try (apply sifts_same; discriminate). now apply sifts_leaving.
    + apply B.
Qed.
End Inner.

(** C110.  Let one struct have an integer with a constraint where another has it without, anywhere,
    also in cases of unions at any depth.  What the first parser accepts, the second accepts with the
    same fields and rest, and the integer meets the constraint or was not read.  What the second
    accepts, the first accepts in the same way, or it fails for the constraint and the integer is one
    that does not meet it.  Otherwise both do the same, unless the first fails for the constraint. *)
Theorem C110_inside : forall camel os fs r p, package camel os fs r p ->
  forall s s' ms1 m m' ms2 nm sz l, defines fs s -> defines fs s' -> scontexts s' = scontexts s ->
  members_of s = ms1 ++ m :: ms2 -> members_of s' = ms1 ++ m' :: ms2 -> within (MField nm (TInt sz (Some l))) (MField nm (TInt sz None)) m m' ->
  forall fs0 data args, ctxValues camel r s args -> goStruct camel r s fs0 -> goStruct camel r s' fs0 -> goBytes data ->
  let meets (a : amap value) := exists x, alookup (camel nm) a = Some (VInt x) /\ in_list (Constant r) l x in
  let msg := violated in
  (forall fs1 rest, parses camel p s fs0 data args fs1 rest -> parses camel p s' fs0 data args fs1 rest /\ (alookup (camel nm) fs1 = alookup (camel nm) fs0 \/ meets fs1)) /\
  (forall fs1 rest, parses camel p s' fs0 data args fs1 rest -> parses camel p s fs0 data args fs1 rest \/ (fails camel p s fs0 data args msg /\ ~ meets fs1)) /\
  (meets fs0 -> forall fs1 rest, parses camel p s fs0 data args fs1 rest <-> parses camel p s' fs0 data args fs1 rest /\ meets fs1) /\
  (forall e, e <> msg -> fails camel p s fs0 data args e -> fails camel p s' fs0 data args e) /\
  (forall e, fails camel p s' fs0 data args e -> fails camel p s fs0 data args e \/ fails camel p s fs0 data args msg) /\
  (forall m, panics camel p s fs0 data args m -> panics camel p s' fs0 data args m) /\
  (forall m, panics camel p s' fs0 data args m -> panics camel p s fs0 data args m \/ fails camel p s fs0 data args msg) /\
  (neverEnds camel p s fs0 data args -> neverEnds camel p s' fs0 data args) /\
  (neverEnds camel p s' fs0 data args -> ~ fails camel p s fs0 data args msg -> neverEnds camel p s fs0 data args).
Proof.
  intros camel os fs r p PK s s' ms1 m m' ms2 nm sz l DS DS' EC EM EM' WI fs0 data args VA G G' VD meets msg.
  assert (VA' : ctxValues camel r s' args) by (unfold ctxValues in *; now rewrite EC).
  pose proof (Build_validCall camel fs r s fs0 data args DS VA G VD) as VC. pose proof (Build_validCall camel fs r s' fs0 data args DS' VA' G' VD) as VC'.
  assert (ND : NoDup (keys camel (members_of s))) by (eapply struct_nodup; eauto; now apply (defines_in fs)).
  assert (NN : alookup (camel nm) fs0 <> None).
  { destruct (P_Within.within_fields _ _ _ _ WI) as (A & B & E & _).
    assert (I : In (nm, TInt sz (Some l)) (flat_map allFields (members_of s))) by (rewrite EM, flat_map_app; cbn [flat_map]; rewrite E; apply in_or_app; right; apply in_or_app; left; apply in_or_app; right; now left).
    destruct (goStruct_lookup camel r s fs0 G ND _ _ I) as (v & E1 & _). congruence. }
  set (dec := fun n => decStruct camel r n s fs0 (contextsOf s args) data). set (dec' := fun n => decStruct camel r n s' fs0 (contextsOf s' args) data).
  assert (GM : forall a, good camel r nm l a <-> meets a).
  { intros a. split; intros (x & E & I); exists x; split; auto; now apply inList_spec. }
  assert (BM : forall a, bad camel r nm l a -> ~ meets a).
  { intros a (x & E & I) (y & E' & J). rewrite E in E'. injection E' as <-. apply inList_spec in J. congruence. }
  assert (ST : forall n, sifts camel r nm l fs0 (dec n) (dec' n)).
  { intros [|n]; [left; split; [reflexivity|discriminate]|]. unfold dec, dec'. cbn [decStruct]. replace (contextsOf s' args) with (contextsOf s args) by (unfold contextsOf; now rewrite EC). rewrite EM in ND. rewrite EM, EM'.
    apply (members_sift camel r nm sz l n (contextsOf s args) data m m' ms1 ms2 WI); auto. intros ND1. intros a c. now apply (member_sift camel r nm sz l n (contextsOf s args) data m m' WI). }
  assert (P1 : forall fs1 rest, parses camel p s fs0 data args fs1 rest -> parses camel p s' fs0 data args fs1 rest /\ (alookup (camel nm) fs1 = alookup (camel nm) fs0 \/ meets fs1)).
  { intros a c. rewrite (parses_dec camel os fs r p PK _ _ _ _ VC), (parses_dec camel os fs r p PK _ _ _ _ VC'). intros [n H]. change (dec n = Ok (a, c)) in H.
    destruct (ST n) as [[E K]|[E K]]; [|congruence]. split; [exists n; change (dec' n = Ok (a, c)); congruence|]. destruct (K _ _ H) as [Q|Q]; [now left|right; now apply GM]. }
  assert (P2 : forall fs1 rest, parses camel p s' fs0 data args fs1 rest -> parses camel p s fs0 data args fs1 rest \/ (fails camel p s fs0 data args msg /\ ~ meets fs1)).
  { intros a c. rewrite (parses_dec camel os fs r p PK _ _ _ _ VC), (parses_dec camel os fs r p PK _ _ _ _ VC'), (fails_dec camel os fs r p PK _ _ _ _ VC). intros [n H]. change (dec' n = Ok (a, c)) in H.
    destruct (ST n) as [[E K]|[E K]]; [left; exists n; change (dec n = Ok (a, c)); congruence|]. right. split; [exists n; exact E|]. apply BM. eauto. }
  assert (SAME : forall n, dec n = dec' n \/ dec n = Err msg) by (intros n; destruct (ST n) as [[E _]|[E _]]; auto).
  split; [exact P1|]. split; [exact P2|]. split.
  { intros M0 a c. split.
    - intros H. destruct (P1 a c H) as [H' [Q|Q]]; split; auto. destruct M0 as (x & E & I). exists x. split; congruence.
    - intros [H M]. destruct (P2 a c H) as [Q|[_ Q]]; [exact Q|contradiction]. }
  split; [|split; [|split; [|split; [|split]]]].
  - intros e NE. rewrite (fails_dec camel os fs r p PK _ _ _ _ VC), (fails_dec camel os fs r p PK _ _ _ _ VC'). intros [n H]. exists n. change (dec' n = Err e). change (dec n = Err e) in H. destruct (SAME n) as [E|E]; congruence.
  - intros e. rewrite !(fails_dec camel os fs r p PK _ _ _ _ VC), (fails_dec camel os fs r p PK _ _ _ _ VC'). intros [n H]. change (dec' n = Err e) in H. destruct (SAME n) as [E|E]; [left|right]; exists n; [change (dec n = Err e); congruence|exact E].
  - intros e. rewrite (panics_dec camel os fs r p PK _ _ _ _ VC), (panics_dec camel os fs r p PK _ _ _ _ VC'). intros [n H]. exists n. change (dec' n = Panic e). change (dec n = Panic e) in H. destruct (SAME n) as [E|E]; congruence.
  - intros e. rewrite (fails_dec camel os fs r p PK _ _ _ _ VC), (panics_dec camel os fs r p PK _ _ _ _ VC), (panics_dec camel os fs r p PK _ _ _ _ VC'). intros [n H]. change (dec' n = Panic e) in H. destruct (SAME n) as [E|E]; [left|right]; exists n; [change (dec n = Panic e); congruence|exact E].
  - intros NE n. apply (run_fuel camel os fs r p PK _ _ _ _ VC'). change (dec' n = OutOfFuel). pose proof (proj1 (run_fuel camel os fs r p PK _ _ _ _ VC n) (NE n)) as N. change (dec n = OutOfFuel) in N. destruct (SAME n) as [E|E]; congruence.
  - intros NE NF n. apply (run_fuel camel os fs r p PK _ _ _ _ VC). change (dec n = OutOfFuel). pose proof (proj1 (run_fuel camel os fs r p PK _ _ _ _ VC' n) (NE n)) as N. change (dec' n = OutOfFuel) in N. destruct (SAME n) as [E|E]; [congruence|].
    exfalso. apply NF. apply (fails_dec camel os fs r p PK _ _ _ _ VC). exists n. exact E.
Qed.
Print Assumptions C110_inside.

(** [struct tight { u8 k; union u[k] { 1: u8 id IN [3..5]; default: ignore; }; }] and
    [struct loose { u8 k; union u[k] { 1: u8 id; default: ignore; }; }]. *)
Definition tightM := MField "id" (TInt 8 (Some [mkRange (ILit 3) (Some (ILit 5))])).
Definition looseM := MField "id" (TInt 8 None).
Definition tightU := MUnion "u" (local "k") None ([] ++ UCase (Some [mkRange (ILit 1) None]) ([] ++ tightM :: []) :: [UCase None [MIgnore]]).
Definition looseU := MUnion "u" (local "k") None ([] ++ UCase (Some [mkRange (ILit 1) None]) ([] ++ looseM :: []) :: [UCase None [MIgnore]]).
Definition tightS := mkStruct "tight" [] (Some [u8 "k"; tightU; u8 "z"]).
Definition looseS := mkStruct "loose" [] (Some [u8 "k"; looseU; u8 "z"]).
Notation atI := (one [tightS; looseS]).
Lemma inner_package : package camelX osX atI (theRes atI) (theProg atI).
Proof. apply package_of; vm_compute; reflexivity. Qed.
Example C110_case : package camelX osX atI (theRes atI) (theProg atI) /\ defines atI tightS /\ defines atI looseS /\
  members_of tightS = [u8 "k"] ++ tightU :: [u8 "z"] /\ members_of looseS = [u8 "k"] ++ looseU :: [u8 "z"] /\ within tightM looseM tightU looseU /\
  (let new := blank camelX (Constant (theRes atI)) tightS in goStruct camelX (theRes atI) tightS new /\ goStruct camelX (theRes atI) looseS new /\
  parses camelX (theProg atI) tightS new [1; 4; 9; 5] [] [("K", VInt 1); ("Id", VInt 4); ("Z", VInt 9)] [5] /\
  parses camelX (theProg atI) looseS new [1; 7; 9; 5] [] [("K", VInt 1); ("Id", VInt 7); ("Z", VInt 9)] [5] /\
  fails camelX (theProg atI) tightS new [1; 7; 9; 5] [] violated).
Proof.
  assert (V : forall s d, In s [tightS; looseS] -> goBytes d -> validCall camelX atI (theRes atI) s (blank camelX (Constant (theRes atI)) s) d []).
  { intros s d I G. apply (fresh_call [tightS; looseS] s); [vm_compute; reflexivity|exact I|destruct I as [<-|[<-|[]]]; reflexivity|destruct I as [<-|[<-|[]]]; reflexivity|exact G]. }
  assert (G1 : goBytes [1; 4; 9; 5]) by (apply bytes_ok; vm_compute; reflexivity). assert (G2 : goBytes [1; 7; 9; 5]) by (apply bytes_ok; vm_compute; reflexivity).
  pose proof (V tightS _ (or_introl eq_refl) G1) as V1. pose proof (V tightS _ (or_introl eq_refl) G2) as V2. pose proof (V looseS _ (or_intror (or_introl eq_refl)) G2) as V3.
  split; [exact inner_package|]. split; [apply V1|]. split; [apply V3|]. split; [reflexivity|]. split; [reflexivity|]. split; [apply W_case; constructor|]. cbv zeta. split; [apply V1|]. split; [exact (vc_recv _ _ _ _ _ _ _ V3)|]. split; [|split].
  - apply (parses_dec camelX osX _ _ _ inner_package _ _ _ _ V1). exists 9%nat. vm_compute. reflexivity.
  - apply (parses_dec camelX osX _ _ _ inner_package _ _ _ _ V3). exists 9%nat. vm_compute. reflexivity.
  - apply (fails_dec camelX osX _ _ _ inner_package _ _ _ _ V2). exists 9%nat. vm_compute. reflexivity.
Qed.
