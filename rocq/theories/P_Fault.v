(** C81: an error says what is wrong at the first place that does not fit. *)
From Coq Require Import ZArith String List Bool Lia ZifyBool ZifyNat.
From Verif Require Import Base Ast IntervalsModel InspectModel InspectSpec GoLang GenModel GenDecode GenCheck GenSimBody WireSpec WireProofs WireComplete GenSafe WireFacts
  ReachSpec ReachProofs FaultProofs PackageSpec PackageProofs PackageFacts PackageMore GenExamples GenWitness P_Parse.
Import ListNotations.
Open Scope string_scope.
Open Scope list_scope.
Open Scope Z_scope.

(** Parsing gets to a place with a fault that is reported as [e]: see [visits] and
    [faulty] in ReachSpec.v. *)
Definition faultAhead (camel : string -> string) (r : resolver) (cenv0 : amap value) (s : struct) (fs0 : amap value) (data : bytes) (e : string) : Prop :=
  exists cenv pos pl f c, visits camel (Constant r) (Struct r) True cenv0 s fs0 data cenv pos pl f c /\
    faulty camel (Constant r) (Struct r) True cenv pos pl f c e.
(** ... to a length that is too large for a slice. *)
Definition burstAhead (camel : string -> string) (r : resolver) (cenv0 : amap value) (s : struct) (fs0 : amap value) (data : bytes) (m : string) : Prop :=
  exists cenv pos pl f c, visits camel (Constant r) (Struct r) True cenv0 s fs0 data cenv pos pl f c /\ bursting camel cenv pl f c m.

Section Call.
Variable camel : string -> string.
Variable os : nat -> orders.
Variable fs : list file.
Variable r : resolver.
Variable p : program.
Hypothesis PK : package camel os fs r p.
Variable s : struct.
Variable fs0 : amap value.
Variable data : bytes.
Variable args : list value.
Hypothesis VC : validCall camel fs r s fs0 data args.
Hypothesis PT : ptrFiles fs = true.
Notation cenv := (contextsOf s args).
Lemma stop_found : forall n x, decStruct camel r n s fs0 cenv data = stopO x -> real x ->
  found camel r cenv s fs0 data x.
Proof.
  intros n x H R. eapply struct_found; eauto.
  - intros nm s' HS HE. split; [eapply str_check; eauto|]. apply (ptr_struct fs PT). eapply str_defines; eauto.
  - eapply vc_check; eauto.
  - apply (ptr_struct fs PT). apply VC.
  - eapply vc_wordc; eauto.
  - eapply vc_wordf; eauto.
  - apply VC.
  - apply VC.
Qed.
Lemma error_found : forall e, fails camel p s fs0 data args e -> faultAhead camel r cenv s fs0 data e.
Proof.
  intros e H. apply (fails_dec camel os fs r p PK _ _ _ _ VC) in H as [n H].
  exact (stop_found n (Fails e) H ltac:(discriminate)).
Qed.
Lemma panic_found : forall m, panics camel p s fs0 data args m -> burstAhead camel r cenv s fs0 data m.
Proof.
  intros m H. apply (panics_dec camel os fs r p PK _ _ _ _ VC) in H as [n H].
  refine (stop_found n (Panics m) H _). intros E. injection E as ->.
  apply (run_panic camel os fs r p PK _ _ _ _ VC) in H. exact (proj1 (never_stuck camel os fs r p PK _ _ _ _ VC n) H).
Qed.
Hypothesis RO : roomyFiles fs r.
Hypothesis L : blen data <= maxData.
Lemma found_panic : forall m, burstAhead camel r cenv s fs0 data m -> panics camel p s fs0 data args m.
Proof.
  intros m (cenv' & pos & pl & f & c & V & B).
  assert (exists n0, forall n, (n0 <= n)%nat -> gives (narrowFiles fs r) (decStruct camel r n s fs0 cenv data) (Panic m)) as [n0 H].
  { eapply burst_reported; try eassumption.
    - intros nm s' HS HE. eapply Hstr_room; eassumption.
    - eapply vc_check; eassumption.
    - eapply ptr_struct; [eassumption|apply VC].
    - eapply room_struct; [eassumption|apply VC].
    - eapply vc_wordc; eassumption.
    - eapply vc_wordf; eassumption. }
  apply (panics_dec camel os fs r p PK _ _ _ _ VC). exists n0. destruct (H n0 (Nat.le_refl _)) as [E|[NA [m' E]]]; auto.
  exfalso. apply (run_panic camel os fs r p PK _ _ _ _ VC) in E. exact (never_panics camel os fs r p PK _ _ _ _ VC NA n0 m' E).
Qed.
End Call.

(** Every error comes from a fault: the members before it fit, it does not. *)
Theorem C81_errors_have_causes : forall camel os fs r p, package camel os fs r p ->
  forall s fs0 data args, validCall camel fs r s fs0 data args -> ptrFiles fs = true ->
  forall e, fails camel p s fs0 data args e -> faultAhead camel r (contextsOf s args) s fs0 data e.
Proof. exact error_found. Qed.
Print Assumptions C81_errors_have_causes.

(** ... and every such fault is reported, so the errors are exactly these. *)
Theorem C81_errors_exact : forall camel os fs r p, package camel os fs r p ->
  forall s fs0 data args, validCall camel fs r s fs0 data args -> ptrFiles fs = true -> roomyFiles fs r -> blen data <= maxData ->
  forall e, fails camel p s fs0 data args e <-> faultAhead camel r (contextsOf s args) s fs0 data e.
Proof.
  intros camel os fs r p PK s fs0 data args VC PT RO L e. split; [apply (error_found camel os fs r p PK _ _ _ _ VC PT)|].
  intros (cenv & pos & pl & f & c & V & F). exact (fault_error camel os fs r p PK s fs0 data args VC PT RO L True cenv pos pl f c e V F).
Qed.
Print Assumptions C81_errors_exact.

(** Every panic comes from a length field that is too large for memory ... *)
Theorem C81_panics_have_causes : forall camel os fs r p, package camel os fs r p ->
  forall s fs0 data args, validCall camel fs r s fs0 data args -> ptrFiles fs = true ->
  forall m, panics camel p s fs0 data args m -> burstAhead camel r (contextsOf s args) s fs0 data m.
Proof. exact panic_found. Qed.
Print Assumptions C81_panics_have_causes.

(** ... and all of these panic. *)
Theorem C81_panics_exact : forall camel os fs r p, package camel os fs r p ->
  forall s fs0 data args, validCall camel fs r s fs0 data args -> ptrFiles fs = true -> roomyFiles fs r -> blen data <= maxData ->
  forall m, panics camel p s fs0 data args m <-> burstAhead camel r (contextsOf s args) s fs0 data m.
Proof.
  intros camel os fs r p PK s fs0 data args VC PT RO L m. split; [apply (panic_found camel os fs r p PK _ _ _ _ VC PT)|].
  apply (found_panic camel os fs r p PK _ _ _ _ VC PT RO L).
Qed.
Print Assumptions C81_panics_exact.

(** There are five errors. *)
Theorem C81_messages : forall camel os fs r p, package camel os fs r p ->
  forall s fs0 data args, validCall camel fs r s fs0 data args -> ptrFiles fs = true ->
  forall e, fails camel p s fs0 data args e ->
  In e ["data too short"; "integer constraint violated"; "could not parse nul-term string"; "trailing data disallowed"; "disallowed case"].
Proof.
  intros camel os fs r p PK s fs0 data args VC PT e H.
  destruct (error_found camel os fs r p PK _ _ _ _ VC PT e H) as (cenv & pos & pl & f & c & _ & F). destruct F; cbn; tauto.
Qed.
Print Assumptions C81_messages.

(** About the format alone: data starts with an encoding, or has a first fault, or
    a length that is too large; and only one of these. *)
Definition starts (camel : string -> string) (r : resolver) (cenv : amap value) (s : struct) (fs0 : amap value) (data : bytes) : Prop :=
  exists w rest fs1, data = w ++ rest /\ encStruct camel (Constant r) (Struct r) True cenv s fs0 w rest fs1.
Theorem C81_one_of_three : forall camel os fs r p, package camel os fs r p ->
  forall s fs0 data args, validCall camel fs r s fs0 data args -> ptrFiles fs = true -> roomyFiles fs r -> blen data <= maxData ->
  forall rank, progress fs r rank ->
  let enc := starts camel r (contextsOf s args) s fs0 data in
  let flt := exists e, faultAhead camel r (contextsOf s args) s fs0 data e in
  let bst := exists m, burstAhead camel r (contextsOf s args) s fs0 data m in
  (enc /\ ~ flt /\ ~ bst \/ ~ enc /\ flt /\ ~ bst \/ ~ enc /\ ~ flt /\ bst) /\
  forall e e', faultAhead camel r (contextsOf s args) s fs0 data e -> faultAhead camel r (contextsOf s args) s fs0 data e' -> e = e'.
Proof.
  intros camel os fs r p PK s fs0 data args VC PT RO L rank PR. cbn zeta.
  assert (E1 : starts camel r (contextsOf s args) s fs0 data <-> exists fs1 rest, parses camel p s fs0 data args fs1 rest).
  { split.
    - intros (w & rest & fs1 & E & X). exists fs1, rest. exact (encodes_parses camel os fs r p PK _ _ _ _ VC PT RO L True _ _ _ E X).
    - intros (fs1 & rest & H). destruct (parses_encodes camel os fs r p PK _ _ _ _ VC PT True (or_introl I) _ _ H) as (w & E & X).
      exists w, rest, fs1. auto. }
  assert (E2 : forall e, faultAhead camel r (contextsOf s args) s fs0 data e <-> fails camel p s fs0 data args e).
  { intros e. symmetry. apply (C81_errors_exact camel os fs r p PK s fs0 data args VC PT RO L). }
  assert (E3 : forall m, burstAhead camel r (contextsOf s args) s fs0 data m <-> panics camel p s fs0 data args m).
  { intros m. symmetry. apply (C81_panics_exact camel os fs r p PK s fs0 data args VC PT RO L). }
  assert (U : forall n n' o o', decStruct camel r n s fs0 (contextsOf s args) data = o -> decStruct camel r n' s fs0 (contextsOf s args) data = o' ->
     o <> OutOfFuel -> o' <> OutOfFuel -> o = o') by (apply run_unique).
  assert (PD := parses_dec camel os fs r p PK _ _ _ _ VC). assert (FD := fails_dec camel os fs r p PK _ _ _ _ VC). assert (ND := panics_dec camel os fs r p PK _ _ _ _ VC).
  split.
  - destruct (terminates camel os fs r p PK _ _ _ _ VC PT rank PR) as [(fs1 & rest & H)|[(e & H)|(m & H)]].
    + left. split; [apply E1; eauto|]. apply PD in H as [n H]. split; intros (e & X); [apply E2, FD in X as [n' X]|apply E3, ND in X as [n' X]];
        pose proof (U _ _ _ _ H X ltac:(discriminate) ltac:(discriminate)); discriminate.
    + right. left. split; [|split; [exists e; now apply E2|]]; apply FD in H as [n H].
      * intros X. apply E1 in X as (fs1 & rest & X). apply PD in X as [n' X].
        pose proof (U _ _ _ _ H X ltac:(discriminate) ltac:(discriminate)); discriminate.
      * intros (e' & X). apply E3, ND in X as [n' X]. pose proof (U _ _ _ _ H X ltac:(discriminate) ltac:(discriminate)); discriminate.
    + right. right. split; [|split; [|exists m; now apply E3]]; apply ND in H as [n H].
      * intros X. apply E1 in X as (fs1 & rest & X). apply PD in X as [n' X].
        pose proof (U _ _ _ _ H X ltac:(discriminate) ltac:(discriminate)); discriminate.
      * intros (e' & X). apply E2, FD in X as [n' X]. pose proof (U _ _ _ _ H X ltac:(discriminate) ltac:(discriminate)); discriminate.
  - intros e e' X Y. apply E2, FD in X as [n X]. apply E2, FD in Y as [n' Y].
    pose proof (U _ _ _ _ X Y ltac:(discriminate) ltac:(discriminate)). congruence.
Qed.
Print Assumptions C81_one_of_three.

(** The point (1, 4) of the demo has a coordinate out of range; a 64-bit length of
    2^63 is a burst. *)
Example C81_case : roomyFiles demo demoR /\ progress demo demoR demoRank /\ blen [1; 4] <= maxData /\
  fails camelX demoP point (blank camelX (Constant demoR) point) [1; 4] [] "integer constraint violated" /\
  faultAhead camelX demoR [] point (blank camelX (Constant demoR) point) [1; 4] "integer constraint violated".
Proof.
  assert (GB : goBytes [1; 4]) by (apply bytes_ok; vm_compute; reflexivity).
  assert (F : fails camelX demoP point (blank camelX (Constant demoR) point) [1; 4] [] "integer constraint violated").
  { apply (fails_dec camelX osX demo demoR demoP demo_package _ _ _ _ (point_call [1; 4] GB)). exists 3%nat. vm_compute. reflexivity. }
  split; [right; exact demo_narrow|]. split; [exact demo_progress|]. split; [vm_compute; discriminate|]. split; auto.
  exact (C81_errors_have_causes camelX osX demo demoR demoP demo_package _ _ _ _ (point_call [1; 4] GB) demo_ptr _ F).
Qed.
Example C81_burst_case : exists m, burstAhead camelX (theRes (one [big])) [] big (blank camelX (Constant (theRes (one [big]))) big) bigData m.
Proof.
  exists "makeslice: len out of range".
  refine (C81_panics_have_causes camelX osX (one [big]) (theRes (one [big])) (theProg (one [big])) _ big _ bigData [] _ eq_refl _ big_panics).
  - apply package_of; vm_compute; reflexivity.
  - apply fresh_call; auto; try (vm_compute; reflexivity). { now left. } { apply bytes_ok; vm_compute; reflexivity. }
Qed.
