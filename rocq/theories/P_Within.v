(** Property C109: an integer inside a union is its bytes, too. *)
From Coq Require Import ZArith String List Bool Lia ZifyBool ZifyNat.
From Verif Require Import Base Ast IntervalsModel InspectModel InspectSpec InspectProofs GoLang GenModel GenDecode GenCheck GenSim GenSimBody GenSimProg GenMono WireSpec WireProofs WireComplete WireFacts GenTerm FwdProofs
  PackageSpec PackageProofs PackageFacts PackageMore GenExamples GenWitness IndepSpec UnrollProofs P_Unroll WithinSpec.
From Verif Require P_Bytes.
Import ListNotations.
Open Scope string_scope.
Open Scope list_scope.
Open Scope Z_scope.

Section Within.
Variable camel : string -> string.
Variable r : resolver.
Variable X : string -> Prop.                                     (* the fields in question *)
Variable kept : amap value -> amap value -> amap value -> amap value -> Prop.  (* what is said of them, before and after *)
Hypothesis kept_same : forall a a' b b', (forall g, X g -> alookup g b = alookup g a /\ alookup g b' = alookup g a') -> kept a a' b b'.
Hypothesis kept_trans : forall a a' b b' c c', kept a a' b b' -> kept b b' c c' -> kept a a' c c'.
Definition rel (a a' : amap value) (o o' : outcome (amap value * bytes)) : Prop :=
  match o, o' with
  | Ok (b, c), Ok (b', c') => c = c' /\ agreeX X b b' /\ kept a a' b b'
  | Err e, Err e' => e = e'
  | Panic e, Panic e' => e = e'
  | OutOfFuel, OutOfFuel => True
  | _, _ => False
  end.
Lemma like_rel : forall a a' o o', like X a a' o o' -> rel a a' o o'.
Proof. intros a a' o o' L. destruct o as [[b c]| | |], o' as [[b' c']| | |]; cbn [like rel] in *; auto. destruct L as (E & A & K). auto. Qed.
Lemma rel_bind : forall a a' o o' k k', rel a a' o o' ->
  (forall b b' c, o = Ok (b, c) -> o' = Ok (b', c) -> agreeX X b b' -> rel b b' (k (b, c)) (k' (b', c))) -> rel a a' (bind o k) (bind o' k').
Proof.
  intros a a' o o' k k' L H. destruct o as [[b c]|e|m|], o' as [[b' c']|e'|m'|]; cbn [rel bind] in *; try contradiction; auto.
  destruct L as (-> & A & K). specialize (H b b' c' eq_refl eq_refl A). destruct (k (b, c')) as [[d e]| | |], (k' (b', c')) as [[d' e']| | |]; cbn [rel] in *; auto.
  destruct H as (E & A' & K'). split; auto. split; auto. eapply kept_trans; eauto.
Qed.
Lemma rel_within : forall a a' k c f f', all_bytes c -> (forall c, all_bytes c -> rel a a' (f c) (f' c)) -> rel a a' (decWithin k c f) (decWithin k c f').
Proof.
  intros a a' k c f f' P H. unfold decWithin. destruct (blen c <? k); [reflexivity|]. destruct (k <? 0); [reflexivity|].
  specialize (H (firstn (Z.to_nat k) c) (all_bytes_firstn _ _ P)). destruct (f _) as [[b c1]| | |], (f' _) as [[b' c1']| | |]; cbn [bind rel] in *; try contradiction; auto.
  destruct H as (-> & A & B). destruct (0 <? blen c1'); cbn [rel]; auto.
Qed.
Lemma rel_leaving : forall a a' k c f f', all_bytes c -> (forall c, all_bytes c -> rel a a' (f c) (f' c)) -> rel a a' (decLeaving k c f) (decLeaving k c f').
Proof. intros a a' k c f f' P H. unfold decLeaving. destruct (k <? 0); [reflexivity|]. destruct (blen c <? k); [reflexivity|]. now apply rel_within. Qed.

(** The case that is taken: the one in question, another one, or none. *)
Lemma choice_cases : forall x cs1 l ms ms' cs2,
  (choice r x (cs1 ++ UCase l ms :: cs2) (cs1 ++ UCase l ms :: cs2) = Some ms /\ choice r x (cs1 ++ UCase l ms' :: cs2) (cs1 ++ UCase l ms' :: cs2) = Some ms') \/
  (exists l0 ms0, In (UCase l0 ms0) (cs1 ++ cs2) /\ choice r x (cs1 ++ UCase l ms :: cs2) (cs1 ++ UCase l ms :: cs2) = Some ms0 /\ choice r x (cs1 ++ UCase l ms' :: cs2) (cs1 ++ UCase l ms' :: cs2) = Some ms0) \/
  (choice r x (cs1 ++ UCase l ms :: cs2) (cs1 ++ UCase l ms :: cs2) = None /\ choice r x (cs1 ++ UCase l ms' :: cs2) (cs1 ++ UCase l ms' :: cs2) = None).
Proof.
  intros x cs1 l ms ms' cs2.
  assert (P2 : forall cs, (exists l0 ms0, In (UCase l0 ms0) cs /\ pickCase r x cs = Some ms0) \/ pickCase r x cs = None).
  { induction cs as [|[[l1|] k] cs IH]; cbn [pickCase]; auto.
    - destruct (inList r x l1); [left; exists (Some l1), k; split; [now left|reflexivity]|]. destruct IH as [(l0 & k0 & I & E)|E]; auto. left. exists l0, k0. split; [now right|auto].
    - destruct IH as [(l0 & k0 & I & E)|E]; auto. left. exists l0, k0. split; [now right|auto]. }
  assert (D2 : forall cs, (exists l0 ms0, In (UCase l0 ms0) cs /\ defaultCase cs = Some ms0) \/ defaultCase cs = None).
  { induction cs as [|[[l1|] k] cs IH]; cbn [defaultCase]; auto.
    - destruct IH as [(l0 & k0 & I & E)|E]; auto. left. exists l0, k0. split; [now right|auto].
    - left. exists None, k. split; [now left|reflexivity]. }
  assert (PC : (pickCase r x (cs1 ++ UCase l ms :: cs2) = Some ms /\ pickCase r x (cs1 ++ UCase l ms' :: cs2) = Some ms') \/
    (exists l0 ms0, In (UCase l0 ms0) (cs1 ++ cs2) /\ pickCase r x (cs1 ++ UCase l ms :: cs2) = Some ms0 /\ pickCase r x (cs1 ++ UCase l ms' :: cs2) = Some ms0) \/
    (pickCase r x (cs1 ++ UCase l ms :: cs2) = None /\ pickCase r x (cs1 ++ UCase l ms' :: cs2) = None)).
  { induction cs1 as [|[[l1|] k] cs1 IH]; cbn [app pickCase].
    - assert (Q : (exists l0 ms0, In (UCase l0 ms0) cs2 /\ pickCase r x cs2 = Some ms0 /\ pickCase r x cs2 = Some ms0) \/ (pickCase r x cs2 = None /\ pickCase r x cs2 = None)) by (destruct (P2 cs2) as [(l0 & k0 & I & E)|E]; [left; exists l0, k0; auto|auto]).
      destruct l as [l|]; auto. destruct (inList r x l); auto.
    - destruct (inList r x l1); [right; left; exists (Some l1), k; split; [now left|auto]|]. destruct IH as [?|[(l0 & k0 & I & E)|?]]; auto. right. left. exists l0, k0. split; [now right|auto].
    - destruct IH as [?|[(l0 & k0 & I & E)|?]]; auto. right. left. exists l0, k0. split; [now right|auto]. }
  assert (DC : (defaultCase (cs1 ++ UCase l ms :: cs2) = Some ms /\ defaultCase (cs1 ++ UCase l ms' :: cs2) = Some ms') \/
    (exists l0 ms0, In (UCase l0 ms0) (cs1 ++ cs2) /\ defaultCase (cs1 ++ UCase l ms :: cs2) = Some ms0 /\ defaultCase (cs1 ++ UCase l ms' :: cs2) = Some ms0) \/
    (defaultCase (cs1 ++ UCase l ms :: cs2) = None /\ defaultCase (cs1 ++ UCase l ms' :: cs2) = None)).
  { clear PC. induction cs1 as [|[[l1|] k] cs1 IH]; cbn [app defaultCase].
    - destruct l as [l|]; auto. destruct (D2 cs2) as [(l0 & k0 & I & E)|E]; [right; left; exists l0, k0; auto|auto].
    - destruct IH as [?|[(l0 & k0 & I & E)|?]]; auto. right. left. exists l0, k0. split; [now right|auto].
    - right. left. exists None, k. split; [now left|auto]. }
  unfold choice. destruct PC as [[-> ->]|[(l0 & k0 & I & -> & ->)|[-> ->]]]; auto. right. left. exists l0, k0. auto.
Qed.

Variables h h' : member.
Variable n : nat.
Variable cenv : amap value.
Variable dat : bytes.
Variable ready : amap value -> amap value -> Prop.
Hypothesis ready_same : forall a a' b b', (forall g, X g -> alookup g b = alookup g a /\ alookup g b' = alookup g a') -> ready a a' -> ready b b'.
Notation dcall := (decCall camel r n).
Notation decM := (decMember camel r dcall n cenv (blen dat)).
Notation decMs := (decMembers camel r dcall n cenv (blen dat)).
Hypothesis HOLE : forall a a' c, agreeX X a a' -> all_bytes c -> ready a a' -> rel a a' (decM h a c) (decM h' a' c).
(** Fields that are in both are none of those in question, and they are not referred to. *)
Definition apart (fl fl' : list (string * type)) (ul : list idref) : Prop :=
  (forall x t, In (x, t) fl -> In (x, t) fl' -> ~ X (camel x)) /\ forall f, In f ul -> rscope f = "" -> ~ X (camel (rname f)).
Lemma apart_sub : forall fl fl' ul gl gl' vl, apart fl fl' ul -> incl gl fl -> incl gl' fl' -> incl vl ul -> apart gl gl' vl.
Proof. intros fl fl' ul gl gl' vl [A B] I J K. split; [intros x t P Q; apply (A x t); auto|intros f P; apply B; auto]. Qed.
Lemma apart_free : forall ms fl fl' ul, apart fl fl' ul -> incl (flat_map allFields ms) fl -> incl (flat_map allFields ms) fl' -> incl (flat_map usesOf ms) ul -> Forall (free camel X) ms.
Proof.
  intros ms fl fl' ul [A B] I J K. apply Forall_forall. intros m IM. split.
  - intros x t E. apply (A x t); [apply I|apply J]; apply in_flat_map; eauto.
  - intros f E. apply B. apply K. apply in_flat_map. eauto.
Qed.
Lemma members_rel : forall m m' ms1 ms2,
  (apart (allFields m) (allFields m') (usesOf m') -> forall a a' c, agreeX X a a' -> all_bytes c -> ready a a' -> rel a a' (decM m a c) (decM m' a' c)) ->
  apart (flat_map allFields (ms1 ++ m :: ms2)) (flat_map allFields (ms1 ++ m' :: ms2)) (flat_map usesOf (ms1 ++ m' :: ms2)) ->
  forall a a' c, agreeX X a a' -> all_bytes c -> ready a a' -> rel a a' (decMs (ms1 ++ m :: ms2) a c) (decMs (ms1 ++ m' :: ms2) a' c).
Proof.
  intros m m' ms1 ms2 H AP a a' c A P N. rewrite !flat_map_app in AP. cbn [flat_map] in AP.
  assert (F1 : Forall (free camel X) ms1) by (apply (apart_free _ _ _ _ AP); intros y I; apply in_or_app; auto).
  assert (F2 : Forall (free camel X) ms2) by (apply (apart_free _ _ _ _ AP); intros y I; apply in_or_app; right; apply in_or_app; auto).
  rewrite !members_app. pose proof (members_like camel r X dcall n cenv dat ms1 F1 a a' c A) as L.
  apply rel_bind; [apply like_rel; exact L|]. intros b b' c1 E E' A1. rewrite E, E' in L. cbn [like] in L. destruct L as (_ & _ & KE).
  destruct (tame_members camel r dcall (leaves_call camel r n) n cenv dat ms1 a c b c1 E) as [[w EW] _].
  cbn [decMembers]. apply rel_bind.
  - apply H; auto.
    + apply (apart_sub _ _ _ _ _ _ AP); intros y I; apply in_or_app; right; apply in_or_app; auto.
    + rewrite EW in P. unfold all_bytes in *. now apply Forall_app in P.
    + eapply ready_same; eauto.
  - intros d d' c2 _ _ A2. apply like_rel. now apply members_like.
Qed.
Notation inCases cs := (flat_map (fun c => match c with UCase _ ms => flat_map allFields ms end) cs).
Notation useCases cs := (flat_map (fun c => match c with UCase _ ms => flat_map usesOf ms end) cs).
Lemma member_rel : forall m m', within h h' m m' -> apart (allFields m) (allFields m') (usesOf m') ->
  forall a a' c, agreeX X a a' -> all_bytes c -> ready a a' -> rel a a' (decM m a c) (decM m' a' c).
Proof.
  intros m m' H. induction H as [|u tag len cs1 l ms1 m m' ms2 cs2 H IH]; intros AP a a' c A P N; [now apply HOLE|].
  rewrite !decMember_union. set (ms := ms1 ++ m :: ms2) in *. set (ms' := ms1 ++ m' :: ms2) in *. set (cs := cs1 ++ UCase l ms :: cs2) in *. set (cs' := cs1 ++ UCase l ms' :: cs2) in *.
  assert (T1 : rscope tag = "" -> ~ X (camel (rname tag))) by (apply (proj2 AP); now left).
  assert (T2 : forall f, len = Some (LRef f) -> rscope f = "" -> ~ X (camel (rname f))) by (intros f E; apply (proj2 AP); rewrite E; cbn [usesOf]; right; now left).
  assert (AC : apart (inCases cs) (inCases cs') (useCases cs')) by (apply (apart_sub _ _ _ _ _ _ AP); intros y I; cbn [allFields usesOf]; auto; right; apply in_or_app; now right).
  clear AP. unfold cs at 1, cs' in AC. rewrite !flat_map_app in AC. cbn [flat_map] in AC.
  assert (AM : apart (flat_map allFields ms) (flat_map allFields ms') (flat_map usesOf ms')) by (apply (apart_sub _ _ _ _ _ _ AC); intros y I; apply in_or_app; right; apply in_or_app; auto).
  assert (AO : forall l0 ms0, In (UCase l0 ms0) (cs1 ++ cs2) -> Forall (free camel X) ms0).
  { intros l0 ms0 I. apply (apart_free _ _ _ _ AC); intros y J; apply in_or_app; (apply in_app_or in I as [I|I]; [left|right; apply in_or_app; right]); apply in_flat_map; exists (UCase l0 ms0); auto. }
  assert (B : forall c, all_bytes c -> rel a a' (x <- refVal camel a cenv tag ;; decPick camel r dcall n cenv dat cs x cs a c) (x <- refVal camel a' cenv tag ;; decPick camel r dcall n cenv dat cs' x cs' a' c)).
  { intros c0 P0. rewrite (ref_like camel X cenv a a' tag A T1). destruct (refVal camel a' cenv tag) as [x|e|e|]; cbn [bind rel]; auto. rewrite !decPick_choice.
    destruct (choice_cases x cs1 l ms ms' cs2) as [[E E']|[(l0 & ms0 & I & E & E')|[E E']]]; fold cs in E; fold cs' in E'; rewrite E, E'.
    - now apply members_rel.
    - apply like_rel. apply members_like; auto. eapply AO; eauto.
    - cbn [rel]. split; [reflexivity|]. split; [exact A|]. apply kept_same. auto. }
  cbv zeta. destruct len as [[f|i]|]; cbn [decConstr].
  - rewrite (ref_like camel X cenv a a' f A (T2 f eq_refl)). destruct (refVal camel a' cenv f); cbn [bind rel]; auto. now apply rel_within.
  - destruct (integerOf r i); cbn [bind rel]; auto. now apply rel_leaving.
  - now apply B.
Qed.
End Within.

Lemma within_fields : forall h h', forall m m', within h h' m m' -> exists A B, allFields m = A ++ allFields h ++ B /\ allFields m' = A ++ allFields h' ++ B.
Proof.
  intros h h' m m' H. induction H as [|u tag len cs1 l ms1 m m' ms2 cs2 H (A & B & E & E')]; [exists [], []; now rewrite !app_nil_r|].
  cbn [allFields]. rewrite !flat_map_app. cbn [flat_map]. rewrite !flat_map_app. cbn [flat_map]. rewrite E, E'.
  exists (flat_map (fun c => match c with UCase _ ms => flat_map allFields ms end) cs1 ++ flat_map allFields ms1 ++ A), (B ++ flat_map allFields ms2 ++ flat_map (fun c => match c with UCase _ ms => flat_map allFields ms end) cs2).
  split; rewrite <- !app_assoc; reflexivity.
Qed.

(** Integers have at least a byte, wherever they are. *)
Lemma size_member : forall r ctxs m k nm sz cst, checkMember r ctxs k m = true -> In (nm, TInt sz cst) (allFields m) -> 0 < sz / 8.
Proof.
  intros r ctxs. induction m as [x t|u tag len cs IH| | |] using member_ind'; intros k nm sz cst C I; cbn [allFields] in I; try (destruct I; fail).
  - destruct I as [I|[]]. injection I as -> ->. cbn [checkMember checkType checkBase] in C. unfold checkInt, goodSize in C.
    assert (sz = 8 \/ sz = 16 \/ sz = 32 \/ sz = 64) as [->|[->|[->| ->]]] by (destruct cst; lia); reflexivity.
  - cbn [checkMember] in C. apply andb_true_iff in C as [_ C3]. apply in_flat_map in I as ([l ms] & I & J). apply in_flat_map in J as (m & J & K).
    rewrite forallb_forall in C3. specialize (C3 _ I). cbn beta iota in C3. apply andb_true_iff in C3 as [_ C3].
    assert (C4 : checkMembers r ctxs k ms = true) by (rewrite <- C3; clear; revert k; induction ms as [|m ms IH]; intros k; cbn [checkMembers]; auto; now rewrite IH).
    apply in_split in J as (pa & pb & ->). destruct (checked_one _ _ _ _ _ _ C4) as [k' CK]. rewrite Forall_forall in IH. specialize (IH _ I). rewrite Forall_forall in IH.
    apply (IH m) with (k := k') (nm := nm) (cst := cst); auto. apply in_or_app. right. now left.
Qed.
Lemma size_pos : forall camel r s, checkStruct camel r s = true -> forall nm sz cst, In (nm, TInt sz cst) (flat_map allFields (members_of s)) -> 0 < sz / 8.
Proof.
  intros camel r s C nm sz cst I. pose proof (checked_members camel r s C) as CM. apply in_flat_map in I as (m & I & J). apply in_split in I as (pa & pb & E). rewrite E in CM.
  destruct (checked_one _ _ _ _ _ _ CM) as [k CK]. eapply size_member; eauto.
Qed.

(** C109.  Let one struct have an integer of [8 k] bits without a constraint where another has an
    array of [k] bytes, anywhere, also in cases of unions at any depth.  Let the receivers agree but
    for these.  Then both accept the same data, return the same rest, report the same errors, and
    agree on panics and on whether they return.  The other fields agree, and the bytes are the
    integer in big-endian order or both are as they were. *)
Theorem C109_inside : forall camel os fs r p, package camel os fs r p ->
  forall s s' ms1 m m' ms2 nm sz nm' i, defines fs s -> defines fs s' -> scontexts s' = scontexts s ->
  members_of s = ms1 ++ m :: ms2 -> members_of s' = ms1 ++ m' :: ms2 -> within (MField nm (TInt sz None)) (MField nm' (TFixed (TInt 8 None) i)) m m' ->
  int_value (Constant r) i = Some (sz / 8) ->
  forall fs0 fs0' data args, ctxValues camel r s args -> goStruct camel r s fs0 -> goStruct camel r s' fs0' -> goBytes data ->
  (forall g, g <> camel nm -> g <> camel nm' -> alookup g fs0 = alookup g fs0') ->
  let same (a a' : amap value) := (forall g, g <> camel nm -> g <> camel nm' -> alookup g a = alookup g a') /\
    ((alookup (camel nm) a = alookup (camel nm) fs0 /\ alookup (camel nm') a' = alookup (camel nm') fs0') \/
     exists x w, alookup (camel nm) a = Some (VInt x) /\ alookup (camel nm') a' = Some (VList (map VInt w)) /\ blen w = sz / 8 /\ bigEndian w x) in
  (forall fs1 rest, parses camel p s fs0 data args fs1 rest -> exists fs1', parses camel p s' fs0' data args fs1' rest /\ same fs1 fs1') /\
  (forall fs1' rest, parses camel p s' fs0' data args fs1' rest -> exists fs1, parses camel p s fs0 data args fs1 rest /\ same fs1 fs1') /\
  (forall e, fails camel p s fs0 data args e <-> fails camel p s' fs0' data args e) /\
  (forall m, panics camel p s fs0 data args m <-> panics camel p s' fs0' data args m) /\
  (neverEnds camel p s fs0 data args <-> neverEnds camel p s' fs0' data args).
Proof.
  intros camel os fs r p PK s s' ms1 m m' ms2 nm sz nm' i DS DS' EC EM EM' WI EI fs0 fs0' data args VA G G' VD AG same.
  assert (VA' : ctxValues camel r s' args) by (unfold ctxValues in *; now rewrite EC).
  pose proof (Build_validCall camel fs r s fs0 data args DS VA G VD) as VC. pose proof (Build_validCall camel fs r s' fs0' data args DS' VA' G' VD) as VC'.
  assert (C' : checkStruct camel r s' = true) by (eapply pk_check; eauto; now apply (defines_in fs)).
  destruct (within_fields _ _ m m' WI) as (A & B & EA & EA'). cbn [allFields app] in EA, EA'.
  set (key := fun f : string * type => camel (fst f)).
  assert (EF : flat_map allFields (members_of s) = (flat_map allFields ms1 ++ A) ++ (nm, TInt sz None) :: (B ++ flat_map allFields ms2)).
  { rewrite EM, flat_map_app. cbn [flat_map]. rewrite EA. rewrite <- !app_assoc. reflexivity. }
  assert (EF' : flat_map allFields (members_of s') = (flat_map allFields ms1 ++ A) ++ (nm', TFixed (TInt 8 None) i) :: (B ++ flat_map allFields ms2)).
  { rewrite EM', flat_map_app. cbn [flat_map]. rewrite EA'. rewrite <- !app_assoc. reflexivity. }
  set (L := flat_map allFields ms1 ++ A) in *. set (R := B ++ flat_map allFields ms2) in *.
  assert (ND : NoDup (map key (flat_map allFields (members_of s)))) by (eapply struct_nodup; eauto; now apply (defines_in fs)).
  assert (ND' : NoDup (map key (flat_map allFields (members_of s')))) by (eapply struct_nodup; eauto; now apply (defines_in fs)).
  set (X := fun g => g = camel nm \/ g = camel nm').
  assert (OUT : forall f, In f (L ++ R) -> ~ X (key f)).
  { intros f I [E|E].
    - rewrite EF, map_app in ND. cbn [map] in ND. apply NoDup_remove_2 in ND. apply ND. rewrite <- map_app. change (key (nm, TInt sz None)) with (camel nm). rewrite <- E. now apply in_map.
    - rewrite EF', map_app in ND'. cbn [map] in ND'. apply NoDup_remove_2 in ND'. apply ND'. rewrite <- map_app. change (key (nm', TFixed (TInt 8 None) i)) with (camel nm'). rewrite <- E. now apply in_map. }
  assert (MIDL : forall (f x : string * type), In f (L ++ x :: R) -> f = x \/ In f (L ++ R)) by (intros f x I; apply in_elt_inv in I as [I|I]; auto).
  assert (AP : apart camel X (flat_map allFields (ms1 ++ m :: ms2)) (flat_map allFields (ms1 ++ m' :: ms2)) (flat_map usesOf (ms1 ++ m' :: ms2))).
  { rewrite <- EM, <- EM'. split.
    - intros x t I J. rewrite EF in I. rewrite EF' in J. apply MIDL in I as [I|I]; [|exact (OUT _ I)]. apply MIDL in J as [J|J]; [congruence|exact (OUT _ J)].
    - intros f I E. apply in_flat_map in I as (m0 & I & J). destruct (struct_uses camel r s' C' m0 f I J E) as (z & cst & K). rewrite EF' in K. apply MIDL in K as [K|K]; [discriminate K|exact (OUT _ K)]. }
  assert (GZ : 0 < sz / 8).
  { assert (I : In (nm, TInt sz None) (flat_map allFields (members_of s))) by (rewrite EF; apply in_or_app; right; now left).
    exact (size_pos camel r s (pk_check camel os fs r p PK s (proj1 (defines_in fs s) DS)) nm sz None I). }
  set (ready := fun a a' : amap value => alookup (camel nm) a <> None /\ alookup (camel nm') a' <> None).
  set (kept := fun a a' b b' : amap value => (alookup (camel nm) b = alookup (camel nm) a /\ alookup (camel nm') b' = alookup (camel nm') a') \/
     exists x w, alookup (camel nm) b = Some (VInt x) /\ alookup (camel nm') b' = Some (VList (map VInt w)) /\ blen w = sz / 8 /\ bigEndian w x).
  assert (KS : forall a a' b b', (forall g, X g -> alookup g b = alookup g a /\ alookup g b' = alookup g a') -> kept a a' b b').
  { intros a a' b b' H. left. split; [apply (H (camel nm)); now left|apply (H (camel nm')); now right]. }
  assert (KT : forall a a' b b' c c', kept a a' b b' -> kept b b' c c' -> kept a a' c c').
  { intros a a' b b' c c' H [[E1 E2]|Y]; [unfold kept in *; rewrite E1, E2; exact H|now right]. }
  assert (RS : forall a a' b b', (forall g, X g -> alookup g b = alookup g a /\ alookup g b' = alookup g a') -> ready a a' -> ready b b').
  { intros a a' b b' H [P Q]. split; [destruct (H (camel nm) (or_introl eq_refl)) as [-> _]|destruct (H (camel nm') (or_intror eq_refl)) as [_ ->]]; auto. }
  assert (RD : ready fs0 fs0').
  { assert (I : In (nm, TInt sz None) (flat_map allFields (members_of s))) by (rewrite EF; apply in_or_app; right; now left).
    assert (I' : In (nm', TFixed (TInt 8 None) i) (flat_map allFields (members_of s'))) by (rewrite EF'; apply in_or_app; right; now left).
    destruct (goStruct_lookup camel r s fs0 G ND _ _ I) as (v & E & _). destruct (goStruct_lookup camel r s' fs0' G' ND' _ _ I') as (v' & E' & _). split; congruence. }
  assert (AX : agreeX X fs0 fs0') by (intros g N; apply AG; intros ->; apply N; [now left|now right]).
  set (N := Z.to_nat (sz / 8)).
  set (dec := fun n => decStruct camel r n s fs0 (contextsOf s args) data). set (dec' := fun n => decStruct camel r n s' fs0' (contextsOf s' args) data).
  assert (ST : forall n, (N <= n)%nat -> rel X kept fs0 fs0' (dec (S n)) (dec' (S n))).
  { intros n LN. unfold dec, dec'. cbn [decStruct]. replace (contextsOf s' args) with (contextsOf s args) by (unfold contextsOf; now rewrite EC). rewrite EM, EM'.
    apply (members_rel camel r X kept KS KT n (contextsOf s args) data ready RS m m' ms1 ms2); [|exact AP|exact AX|exact (proj1 VD)|exact RD].
    intros APM. apply (member_rel camel r X kept KS KT (MField nm (TInt sz None)) (MField nm' (TFixed (TInt 8 None) i)) n (contextsOf s args) data ready RS); [|exact WI|exact APM].
    intros a a' c AA AB [R1 R2]. cbn [decMember decType]. rewrite (proj2 (integerOf_value r i (sz / 8)) EI). cbn [decBase bind].
    set (k := sz / 8) in *. rewrite <- (Z2Nat.id k) at 1 by lia. rewrite P_Bytes.for_bytes by auto. rewrite Z2Nat.id by lia. unfold decInt. fold k.
    destruct (blen c <? k) eqn:BL; cbn [bind rel]; auto. split; [reflexivity|].
    set (w := firstn (Z.to_nat k) c). split.
    - intros g NX. rewrite !alookup_assign_other; auto; intros ->; apply NX; [now right|now left].
    - right. exists (be w), w. rewrite !alookup_assign, !String.eqb_refl. destruct (alookup (camel nm) a); [|congruence]. destruct (alookup (camel nm') a'); [|congruence]. split; auto. split; auto. split.
      + unfold w, blen. rewrite firstn_length. unfold blen in BL. lia.
      + apply bigEndian_be. unfold w. now apply all_bytes_firstn. }
  assert (SM : forall a a', agreeX X a a' -> kept fs0 fs0' a a' -> same a a').
  { intros a a' Y K. split; [|exact K]. intros g N1 N2. apply Y. intros [E|E]; contradiction. }
  set (far := fun n => S (n + N)).
  assert (FS : forall n, let o := dec n in o <> OutOfFuel -> dec (far n) = o).
  { intros n o NO. eapply dec_final with (n := n); unfold far; eauto. lia. }
  assert (FS' : forall n, let o := dec' n in o <> OutOfFuel -> dec' (far n) = o).
  { intros n o NO. eapply dec_final with (n := n); unfold far; eauto. lia. }
  assert (ST' : forall n, rel X kept fs0 fs0' (dec (far n)) (dec' (far n))) by (intros n; apply ST; lia).
  clearbody far. unfold rel in ST'.
  split; [|split; [|split; [|split]]].
  - intros fs1 rest H. apply (parses_dec camel os fs r p PK _ _ _ _ VC) in H as [n H]. change (dec n = Ok (fs1, rest)) in H. specialize (FS n). rewrite H in FS. specialize (FS ltac:(discriminate)). specialize (ST' n). rewrite FS in ST'.
    destruct (dec' (far n)) as [[a' c']| | |] eqn:E; try contradiction. destruct ST' as (<- & XA & Y). exists a'. split; auto.
    apply (parses_dec camel os fs r p PK _ _ _ _ VC'). eauto.
  - intros fs1 rest H. apply (parses_dec camel os fs r p PK _ _ _ _ VC') in H as [n H]. change (dec' n = Ok (fs1, rest)) in H. specialize (FS' n). rewrite H in FS'. specialize (FS' ltac:(discriminate)). specialize (ST' n). rewrite FS' in ST'.
    destruct (dec (far n)) as [[a c]| | |] eqn:E; try contradiction. destruct ST' as (-> & XA & Y). exists a. split; auto.
    apply (parses_dec camel os fs r p PK _ _ _ _ VC). eauto.
  - intros e. rewrite (fails_dec camel os fs r p PK _ _ _ _ VC), (fails_dec camel os fs r p PK _ _ _ _ VC'). split; intros [n H]; exists (far n); specialize (ST' n).
    + change (dec n = Err e) in H. specialize (FS n). rewrite H in FS. rewrite (FS ltac:(discriminate)) in ST'. change (dec' (far n) = Err e). destruct (dec' (far n)) as [[a' c']| | |]; try contradiction. congruence.
    + change (dec' n = Err e) in H. specialize (FS' n). rewrite H in FS'. rewrite (FS' ltac:(discriminate)) in ST'. change (dec (far n) = Err e). destruct (dec (far n)) as [[a c]| | |]; try contradiction. congruence.
  - intros e. rewrite (panics_dec camel os fs r p PK _ _ _ _ VC), (panics_dec camel os fs r p PK _ _ _ _ VC'). split; intros [n H]; exists (far n); specialize (ST' n).
    + change (dec n = Panic e) in H. specialize (FS n). rewrite H in FS. rewrite (FS ltac:(discriminate)) in ST'. change (dec' (far n) = Panic e). destruct (dec' (far n)) as [[a' c']| | |]; try contradiction. congruence.
    + change (dec' n = Panic e) in H. specialize (FS' n). rewrite H in FS'. rewrite (FS' ltac:(discriminate)) in ST'. change (dec (far n) = Panic e). destruct (dec (far n)) as [[a c]| | |]; try contradiction. congruence.
  - unfold neverEnds. split; intros H n.
    + apply (run_fuel camel os fs r p PK _ _ _ _ VC'). change (dec' n = OutOfFuel). pose proof (proj1 (run_fuel camel os fs r p PK _ _ _ _ VC (far n)) (H (far n))) as Z0. change (dec (far n) = OutOfFuel) in Z0.
      specialize (ST' n). specialize (FS' n). cbv zeta in FS'. rewrite Z0 in ST'. destruct (dec' n) as [[a c]|e|e|]; auto; rewrite FS' in ST' by discriminate; contradiction.
    + apply (run_fuel camel os fs r p PK _ _ _ _ VC). change (dec n = OutOfFuel). pose proof (proj1 (run_fuel camel os fs r p PK _ _ _ _ VC' (far n)) (H (far n))) as Z0. change (dec' (far n) = OutOfFuel) in Z0.
      specialize (ST' n). specialize (FS n). cbv zeta in FS. rewrite Z0 in ST'. destruct (dec n) as [[a c]|e|e|]; auto; rewrite FS in ST' by discriminate; contradiction.
Qed.
Print Assumptions C109_inside.

(** [struct num { u8 k; union u[k] { 1: u32 id; default: ignore; }; }] and
    [struct raw { u8 k; union u[k] { 1: u8 id[4]; default: ignore; }; }]. *)
Definition numM := MField "id" (TInt 32 None).
Definition rawM := MField "id" (TFixed (TInt 8 None) (ILit 4)).
Definition numU := MUnion "u" (local "k") None ([] ++ UCase (Some [mkRange (ILit 1) None]) ([] ++ numM :: []) :: [UCase None [MIgnore]]).
Definition rawU := MUnion "u" (local "k") None ([] ++ UCase (Some [mkRange (ILit 1) None]) ([] ++ rawM :: []) :: [UCase None [MIgnore]]).
Definition numS := mkStruct "num" [] (Some [u8 "k"; numU; u8 "z"]).
Definition rawS := mkStruct "raw" [] (Some [u8 "k"; rawU; u8 "z"]).
Notation atW := (one [numS; rawS]).
Lemma within_package : package camelX osX atW (theRes atW) (theProg atW).
Proof. apply package_of; vm_compute; reflexivity. Qed.
Example C109_case : package camelX osX atW (theRes atW) (theProg atW) /\ defines atW numS /\ defines atW rawS /\
  members_of numS = [u8 "k"] ++ numU :: [u8 "z"] /\ members_of rawS = [u8 "k"] ++ rawU :: [u8 "z"] /\ within numM rawM numU rawU /\
  int_value (Constant (theRes atW)) (ILit 4) = Some (32 / 8) /\
  (forall g, g <> camelX "id" -> alookup g (blank camelX (Constant (theRes atW)) numS) = alookup g (blank camelX (Constant (theRes atW)) rawS)) /\
  parses camelX (theProg atW) numS (blank camelX (Constant (theRes atW)) numS) [1; 0; 2; 7; 8; 9; 5] [] [("K", VInt 1); ("Id", VInt 132872); ("Z", VInt 9)] [5] /\
  parses camelX (theProg atW) rawS (blank camelX (Constant (theRes atW)) rawS) [1; 0; 2; 7; 8; 9; 5] [] [("K", VInt 1); ("Id", VList [VInt 0; VInt 2; VInt 7; VInt 8]); ("Z", VInt 9)] [5].
Proof.
  assert (G : goBytes [1; 0; 2; 7; 8; 9; 5]) by (apply bytes_ok; vm_compute; reflexivity).
  assert (V : forall s, In s [numS; rawS] -> validCall camelX atW (theRes atW) s (blank camelX (Constant (theRes atW)) s) [1; 0; 2; 7; 8; 9; 5] []).
  { intros s I. apply (fresh_call [numS; rawS] s); [vm_compute; reflexivity|exact I|destruct I as [<-|[<-|[]]]; reflexivity|destruct I as [<-|[<-|[]]]; reflexivity|exact G]. }
  split; [exact within_package|]. split; [apply (V numS); cbn; auto|]. split; [apply (V rawS); cbn; auto|]. split; [reflexivity|]. split; [reflexivity|]. split; [apply W_case; constructor|]. split; [reflexivity|]. split; [|split].
  - intros g N. cbn [blank flat_map members_of numS rawS numU rawU numM rawM smembers u8 allFields app map fst snd alookup].
    destruct (String.eqb g (camelX "k")); auto. destruct (String.eqb_spec g (camelX "id")); [contradiction|]. reflexivity.
  - apply (parses_dec camelX osX _ _ _ within_package _ _ _ _ (V numS (or_introl eq_refl))). exists 9%nat. vm_compute. reflexivity.
  - apply (parses_dec camelX osX _ _ _ within_package _ _ _ _ (V rawS (or_intror (or_introl eq_refl)))). exists 9%nat. vm_compute. reflexivity.
Qed.
