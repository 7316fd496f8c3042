(** C83: the emitted tests and fuzz functions tell good data from bad. *)
From Coq Require Import ZArith String List Bool Lia ZifyBool ZifyNat Permutation.
From Verif Require Import Base Ast IntervalsModel InspectModel InspectSpec InspectProofs GoLang GenModel GenDecode GenCheck GenPrint GenSimBody WireSpec WireProofs WireComplete GenSafe WireFacts
  ReachSpec ReachProofs FaultProofs PackageSpec PackageProofs PackageFacts PackageMore TvModel TvConstraints TvFacts TvClass TvGood TvAccept TvBytes PkgModel PkgProofs PkgFacts
  BuildProofs GenExamples GenWitness TvWitness P_Parse P_Fault TvScopes HarnessModel.
Import ListNotations.
Open Scope string_scope.
Open Scope list_scope.
Open Scope Z_scope.

(** The result of a run, whatever the bound on its steps beyond some point. *)
Definition comesTo {A} (run : nat -> outcome A) (x : outcome A) : Prop := exists n0, forall n, (n0 <= n)%nat -> run n = x.

Section Calls.
Variable camel : string -> string.
Variable os : nat -> orders.
Variable fs : list file.
Variable r : resolver.
Variable p : program.
Hypothesis PK : package camel os fs r p.
Variable s : struct.
Hypothesis D : defines fs s.
Hypothesis NC : scontexts s = [].
Notation new := (blank camel (Constant r) s).

Lemma cat_parse : forall a b, cat ["Parse"; a] = cat ["Parse"; b] -> a = b.
Proof. intros a b H. cbn in H. now injection H. Qed.
Lemma named_new : forall n data, callNamed p n (cat ["Parse"; camel (sname s)]) data = runNew camel p n s data [].
Proof.
  intros n data. unfold callNamed, runNew. destruct (find _ (pctors p)) as [[ty f]|] eqn:E.
  - apply find_some in E as (_ & E). apply String.eqb_eq in E. cbn [fst] in E. apply cat_parse in E. now rewrite E.
  - exfalso. apply defines_in in D. destruct (GenSimProg.program_struct camel r fs p (pk_gen camel os fs r p PK) (pk_checked _ _ _ _ _ PK) s D) as (ds & f & ct & _ & _ & _ & _ & _ & Lc).
    apply GenSimProg.alookup_some_in in Lc. apply (find_none _ _ E) in Lc. cbn [fst] in Lc. rewrite String.eqb_refl in Lc. discriminate.
Qed.
Lemma no_args : ctxValues camel r s [].
Proof. unfold ctxValues. rewrite NC. constructor. Qed.
Lemma new_call : forall data, goBytes data -> validCall camel fs r s new data [].
Proof. intros data GB. constructor; auto; [apply no_args|]. apply (blank_goStruct camel os fs r p PK). now apply defines_in. Qed.
Lemma no_ctx : contextsOf s [] = [].
Proof. unfold contextsOf. now rewrite NC. Qed.

Section Data.
Variable data : bytes.
Hypothesis GB : goBytes data.
Notation dec n := (decStruct camel r n s new (contextsOf s []) data).
Lemma named_run : forall n,
  match dec n with
  | Ok (fs1, _) => callNamed p n (cat ["Parse"; camel (sname s)]) data = SRet (VStruct (camel (sname s)) fs1) VNil
  | Err m => callNamed p n (cat ["Parse"; camel (sname s)]) data = SRet VNil (VErr m)
  | Panic m => callNamed p n (cat ["Parse"; camel (sname s)]) data = SPanic m
  | OutOfFuel => callNamed p n (cat ["Parse"; camel (sname s)]) data = SFuel
  end.
Proof.
  intros n. rewrite named_new. exact (new_run camel os fs r p PK n s data [] (proj1 (defines_in fs s) D) no_args GB).
Qed.
Hypothesis PT : ptrFiles fs = true.
Hypothesis RO : roomyFiles fs r.
Hypothesis L : blen data <= maxData.

(** How [ParseX(data)] ends. *)
Definition verdict (x : outcome unit) : Prop :=
  match x with
  | Ok _ => starts camel r [] s new data
  | Err e => faultAhead camel r [] s new data e
  | Panic m => burstAhead camel r [] s new data m
  | OutOfFuel => False
  end.
Definition asked (n : nat) : outcome unit :=
  match callNamed p n (cat ["Parse"; camel (sname s)]) data with
  | SRet _ VNil => Ok tt
  | SRet _ (VErr e) => Err e
  | SRet _ _ | SNext => Panic "ill-typed"
  | SPanic m => Panic m
  | SFuel => OutOfFuel
  end.
Lemma asked_dec : forall n, asked n = (_ <- dec n ;; Ok tt)%outcome.
Proof. intros n. unfold asked. pose proof (named_run n) as H. destruct (dec n) as [[fs1 c]|e|m|]; rewrite H; reflexivity. Qed.
Lemma asked_runs : forall n x, asked n = x -> x <> OutOfFuel -> comesTo asked x.
Proof.
  intros n x H N. exists n. intros n' Ln. rewrite asked_dec in *.
  rewrite (dec_final camel r s new data [] n n' (dec n) eq_refl) by (auto; intros X; rewrite X in H; cbn in H; congruence). exact H.
Qed.
Lemma asked_verdict : forall x, x <> OutOfFuel -> (comesTo asked x <-> verdict x).
Proof.
  pose proof (new_call data GB) as VC.
  assert (V : forall n x, asked n = x -> x <> OutOfFuel -> verdict x).
  { intros n x H N. rewrite asked_dec in H. destruct (dec n) as [[fs1 c]|e|m|] eqn:E; cbn [bind] in H; subst x; cbn [verdict]; rewrite <- ?no_ctx.
    - destruct (parses_encodes camel os fs r p PK _ _ _ _ VC PT True (or_introl I) fs1 c) as (w & Ew & X); [apply (parses_dec camel os fs r p PK _ _ _ _ VC); eauto|].
      exists w, c, fs1. auto.
    - apply (C81_errors_have_causes camel os fs r p PK _ _ _ _ VC PT). apply (fails_dec camel os fs r p PK _ _ _ _ VC). eauto.
    - apply (C81_panics_have_causes camel os fs r p PK _ _ _ _ VC PT). apply (panics_dec camel os fs r p PK _ _ _ _ VC). eauto.
    - contradiction. }
  assert (W : forall x, verdict x -> exists n, asked n = x).
  { intros x H. destruct x as [[]|e|m|]; cbn [verdict] in H; try contradiction; rewrite <- ?no_ctx in H.
    - destruct H as (w & rest & fs1 & Ew & X). pose proof (encodes_parses camel os fs r p PK _ _ _ _ VC PT RO L True _ _ _ Ew X) as Q.
      apply (parses_dec camel os fs r p PK _ _ _ _ VC) in Q as [n Q]. exists n. rewrite asked_dec, Q. reflexivity.
    - apply (C81_errors_exact camel os fs r p PK _ _ _ _ VC PT RO L) in H. apply (fails_dec camel os fs r p PK _ _ _ _ VC) in H as [n Q]. exists n. rewrite asked_dec, Q. reflexivity.
    - apply (C81_panics_exact camel os fs r p PK _ _ _ _ VC PT RO L) in H. apply (panics_dec camel os fs r p PK _ _ _ _ VC) in H as [n Q]. exists n. rewrite asked_dec, Q. reflexivity. }
  intros x N. split.
  - intros [n0 H]. apply (V n0); auto.
  - intros H. destruct (W x H) as [n E]. eapply asked_runs; eauto.
Qed.
End Data.
End Calls.

Section Emitted.
Variable camel : string -> string.
Variable os : nat -> orders.
Variable fs : list file.
Variable r : resolver.
Variable p : program.
Hypothesis PK : package camel os fs r p.
Variable grow : nat -> nat -> nat.
Variable ords : nat -> uorders.
Variable sel : nat -> list vec -> list vec.
Variable os' : nat -> orders.
Variable k : nat.
Variable rn : rng.
Variable c : corpus.
Hypothesis GF : GenerateFiles grow ords sel os' k fs rn = Ok c.

Lemma suite_struct : forall u, In u c -> exists s, defines fs s /\ sname s = stype u.
Proof.
  intros u I. assert (IN : In (stype u) (map stype c)) by now apply in_map. rewrite (files_suites _ _ _ _ _ _ _ _ GF) in IN.
  apply in_map_iff in IN as (s & ES & IS). exists s. split; auto. now apply defines_in.
Qed.
Lemma struct_suite : forall s, defines fs s -> exists u, In u c /\ stype u = sname s.
Proof.
  intros s D. apply defines_in in D. apply (in_map sname) in D. rewrite <- (files_suites _ _ _ _ _ _ _ _ GF) in D. apply in_map_iff in D as (u & E & I). eauto.
Qed.
Lemma vector_bytes : forall u d q, In u c -> In (d, q) (svectors u) -> all_bytes d.
Proof.
  intros u d q Iu Iv. pose proof (vectors_bytes _ _ _ _ _ _ _ _ GF) as B. rewrite Forall_forall in B. specialize (B _ Iu). cbn beta in B. rewrite Forall_forall in B. apply (B _ Iv).
Qed.
Lemma present : (forall n, goodOrders (ords n)) -> (forall n vs, exists rest, Permutation (sel n vs ++ rest) vs) -> all_valid os' ->
  forall s, defines fs s -> scontexts s = [] ->
  exists u, In u c /\ stype u = sname s /\
    In (mkEmitted (cat ["Test"; camel (sname s); "Corpus"]) (map fst (svectors u)) (cat ["Parse"; camel (sname s)]) ["c.Data"]) (CorpusTests camel c) /\
    In (mkEmitted (cat ["Fuzz"; camel (sname s)]) [] (cat ["Parse"; camel (sname s)]) ["data"]) (Fuzzers camel c).
Proof.
  intros HO HS V s D NC. destruct (struct_suite s D) as (u & Iu & EU). exists u. split; auto. split; auto.
  assert (N : constrained (svectors u) = false).
  { destruct (constrained (svectors u)) eqn:E; auto. unfold constrained in E. apply existsb_exists in E as ([d q] & Iv & E). cbn [snd] in E.
    destruct (vectors_scoped camel os fs r p PK grow ords sel k rn c HO HS os' V GF u d q Iu Iv) as (s' & D' & N' & S').
    assert (s' = s).
    { apply defines_in in D, D'. pose proof (proj2 (pk_struct camel os fs r p PK (sname s) s (proj1 (proj2 (defines_in fs s) D))) (conj D eq_refl)) as A.
      assert (N2 : sname s' = sname s) by congruence.
      pose proof (proj2 (pk_struct camel os fs r p PK (sname s) s' (proj1 (proj2 (defines_in fs s') D'))) (conj D' N2)) as B. congruence. }
    subst s'. destruct q as [|[x xs] q]; [discriminate|]. specialize (S' x (or_introl eq_refl)). rewrite NC in S'. destruct S'. }
  split; apply in_flat_map; exists u; (split; [exact Iu|]); rewrite N, EU; left; reflexivity.
Qed.
End Emitted.

(** Every struct without contexts has a test, with all of its vectors, and a fuzz
    function. *)
Theorem C83_present : forall camel os fs r p, package camel os fs r p ->
  forall grow ords sel os' k rn c, GenerateFiles grow ords sel os' k fs rn = Ok c ->
  (forall n, goodOrders (ords n)) -> (forall n vs, exists rest, Permutation (sel n vs ++ rest) vs) -> all_valid os' ->
  forall s, defines fs s -> scontexts s = [] ->
  exists u, In u c /\ stype u = sname s /\
    In (mkEmitted (cat ["Test"; camel (sname s); "Corpus"]) (map fst (svectors u)) (cat ["Parse"; camel (sname s)]) ["c.Data"]) (CorpusTests camel c) /\
    In (mkEmitted (cat ["Fuzz"; camel (sname s)]) [] (cat ["Parse"; camel (sname s)]) ["data"]) (Fuzzers camel c).
Proof. exact present. Qed.
Print Assumptions C83_present.

(** More generally the constraints that come with a vector are about contexts of
    its struct: those are all that a caller has to supply. *)
Theorem C83_constraints : forall camel os fs r p, package camel os fs r p ->
  forall grow ords sel n rn c, (forall k, goodOrders (ords k)) -> (forall k vs, exists rest, Permutation (sel k vs ++ rest) vs) ->
  forall os', all_valid os' -> GenerateFiles grow ords sel os' n fs rn = Ok c ->
  forall u d k, In u c -> In (d, k) (svectors u) -> exists s, defines fs s /\ sname s = stype u /\ forall x, In x (map fst k) -> In x (scontexts s).
Proof. exact vectors_scoped. Qed.
Print Assumptions C83_constraints.

(** A fuzz function returns 1 for data that starts with an encoding, 0 for data
    with a fault, and panics where a length is too large for memory. *)
Theorem C83_fuzz : forall camel os fs r p, package camel os fs r p -> ptrFiles fs = true -> roomyFiles fs r ->
  forall grow ords sel os' k rn c, GenerateFiles grow ords sel os' k fs rn = Ok c ->
  forall e, In e (Fuzzers camel c) -> exists s, defines fs s /\ eName e = cat ["Fuzz"; camel (sname s)] /\
    (scontexts s = [] -> forall data, goBytes data -> blen data <= maxData ->
      let new := blank camel (Constant r) s in
      let result := comesTo (fun n => runFuzz p n e data) in
      (result (Ok 1) <-> starts camel r [] s new data) /\
      (result (Ok 0) <-> exists m, faultAhead camel r [] s new data m) /\
      (forall m, result (Panic m) <-> burstAhead camel r [] s new data m) /\
      forall rank, progress fs r rank -> result (Ok 1) \/ result (Ok 0) \/ exists m, result (Panic m)).
Proof.
  intros camel os fs r p PK PT RO grow ords sel os' k rn c GF e I. apply in_flat_map in I as (u & Iu & J).
  destruct (constrained (svectors u)); [destruct J|destruct J as [<-|[]]]. destruct (suite_struct fs _ _ _ _ _ _ _ GF u Iu) as (s & D & ES). exists s. split; auto. split; [now rewrite ES|].
  intros NC data GB L. cbn zeta. rewrite <- ES.
  pose proof (asked_verdict camel os fs r p PK s D NC data GB PT RO L) as AV.
  set (e := mkEmitted _ _ _ _).
  assert (RF : forall n, runFuzz p n e data = match asked camel p s data n with Ok _ => Ok 1 | Err _ => Ok 0 | Panic m => Panic m | OutOfFuel => OutOfFuel end).
  { intros n. unfold runFuzz, asked, e. cbn [eCallee]. destruct (callNamed _ _ _ _) as [|v1 v2|m|]; auto. destruct v2; auto. }
  assert (R1 : comesTo (fun n => runFuzz p n e data) (Ok 1) <-> starts camel r [] s (blank camel (Constant r) s) data).
  { rewrite <- (AV (Ok tt) ltac:(discriminate)). split; intros [n0 H]; exists n0; intros n Ln; specialize (H n Ln).
    - rewrite RF in H. destruct (asked camel p s data n) as [[]| | |]; congruence.
    - rewrite RF, H. reflexivity. }
  assert (R0 : comesTo (fun n => runFuzz p n e data) (Ok 0) <-> exists m, faultAhead camel r [] s (blank camel (Constant r) s) data m).
  { split.
    - intros [n0 H]. pose proof (H n0 (Nat.le_refl _)) as H0. rewrite RF in H0. destruct (asked camel p s data n0) as [[]|m| |] eqn:E; try congruence. exists m.
      apply (AV (Err m) ltac:(discriminate)). eapply asked_runs; eauto. discriminate.
    - intros [m H]. apply (AV (Err m) ltac:(discriminate)) in H. destruct H as [n0 H]. exists n0. intros n Ln. rewrite RF, (H n Ln). reflexivity. }
  assert (RP : forall m, comesTo (fun n => runFuzz p n e data) (Panic m) <-> burstAhead camel r [] s (blank camel (Constant r) s) data m).
  { intros m. rewrite <- (AV (Panic m) ltac:(discriminate)). split; intros [n0 H]; exists n0; intros n Ln; specialize (H n Ln).
    - rewrite RF in H. destruct (asked camel p s data n) as [[]| | |]; congruence.
    - rewrite RF, H. reflexivity. }
  split; [exact R1|]. split; [exact R0|]. split; [exact RP|].
  intros rank PR. pose proof (new_call camel os fs r p PK s D NC data GB) as VC.
  destruct (C81_one_of_three camel os fs r p PK s _ data [] VC PT RO L rank PR) as ([(A & _)|[(_ & A & _)|(_ & _ & A)]] & _); rewrite (no_ctx s NC) in A.
  - left. now apply R1.
  - right. left. now apply R0.
  - right. right. destruct A as [m A]. exists m. now apply RP.
Qed.
Print Assumptions C83_fuzz.

(** A test passes if its inputs all start with an encoding, and otherwise reports
    the fault of the first one that does not. *)
Theorem C83_test : forall camel os fs r p, package camel os fs r p -> ptrFiles fs = true -> roomyFiles fs r ->
  forall grow ords sel os' k rn c, GenerateFiles grow ords sel os' k fs rn = Ok c ->
  forall e, In e (CorpusTests camel c) -> exists s, defines fs s /\ eName e = cat ["Test"; camel (sname s); "Corpus"] /\
    (scontexts s = [] -> (forall d, In d (eCases e) -> blen d <= maxData) ->
      let new := blank camel (Constant r) s in
      let result := comesTo (fun n => runTest p n e) in
      (result (Ok tt) <-> forall d, In d (eCases e) -> starts camel r [] s new d) /\
      (forall m, result (Err m) <-> exists l1 d l2, eCases e = l1 ++ d :: l2 /\ (forall d', In d' l1 -> starts camel r [] s new d') /\ faultAhead camel r [] s new d m) /\
      (forall m, result (Panic m) <-> exists l1 d l2, eCases e = l1 ++ d :: l2 /\ (forall d', In d' l1 -> starts camel r [] s new d') /\ burstAhead camel r [] s new d m)).
Proof.
  intros camel os fs r p PK PT RO grow ords sel os' k rn c GF e I. apply in_flat_map in I as (u & Iu & J).
  destruct (constrained (svectors u)); [destruct J|destruct J as [<-|[]]]. destruct (suite_struct fs _ _ _ _ _ _ _ GF u Iu) as (s & D & ES). exists s. split; auto. split; [now rewrite ES|].
  cbn [eCases]. intros NC LD. cbn zeta. rewrite <- ES. unfold runTest. cbn [eCases eCallee].
  assert (GB : forall d, In d (map fst (svectors u)) -> goBytes d).
  { intros d Id. split; [|specialize (LD d Id); unfold maxData, two63 in *; lia]. apply in_map_iff in Id as ([d' q] & <- & Iv). eapply vector_bytes; eauto. }
  revert GB LD. generalize (map fst (svectors u)) as ds. clear u Iu ES. intros ds GB LD.
  set (callee := cat ["Parse"; camel (sname s)]).
  set (ok := starts camel r [] s (blank camel (Constant r) s)).
  assert (X : forall x, x <> OutOfFuel -> (comesTo (fun n => runCases p n callee ds) x <->
    ((forall d, In d ds -> ok d) /\ x = Ok tt) \/
    exists l1 d l2, ds = l1 ++ d :: l2 /\ (forall d', In d' l1 -> ok d') /\ x <> Ok tt /\ verdict camel r s d x)).
  { induction ds as [|d ds IH]; intros x N.
    - split.
      + intros [n0 H]. left. split; [intros d []|]. symmetry. exact (H n0 (Nat.le_refl _)).
      + intros [(_ & ->)|(l1 & d & l2 & E & _)]; [exists 0%nat; reflexivity|destruct l1; discriminate].
    - pose proof (asked_verdict camel os fs r p PK s D NC d (GB d (or_introl eq_refl)) PT RO (LD d (or_introl eq_refl))) as AV.
      specialize (IH (fun d' I => GB d' (or_intror I)) (fun d' I => LD d' (or_intror I))).
      assert (RC : forall n, runCases p n callee (d :: ds) = (_ <- asked camel p s d n ;; runCases p n callee ds)%outcome).
      { intros n. cbn [runCases]. unfold asked. fold callee. destruct (callNamed _ _ _ _) as [|v1 v2|m|]; auto. destruct v2; auto. }
      split.
      + intros [n0 H]. pose proof (H n0 (Nat.le_refl _)) as H0. cbn beta in H0. rewrite RC in H0.
        assert (AR : forall y, asked camel p s d n0 = y -> y <> OutOfFuel -> comesTo (asked camel p s d) y) by (intros; eapply asked_runs; eauto; apply GB; now left).
        destruct (asked camel p s d n0) as [[]|m|m|] eqn:E; cbn [bind] in H0.
        * specialize (AR _ eq_refl ltac:(discriminate)). pose proof AR as [n1 A1]. apply (AV (Ok tt) ltac:(discriminate)) in AR. cbn [verdict] in AR.
          assert (C1 : comesTo (fun n => runCases p n callee ds) x).
          { exists (n0 + n1)%nat. intros n Ln. specialize (H n ltac:(lia)). cbn beta in H. rewrite RC, (A1 n ltac:(lia)) in H. exact H. }
          apply (IH x N) in C1 as [(C1 & ->)|(l1 & d' & l2 & -> & C1 & C2)].
          -- left. split; auto. intros d' [<-|J]; auto.
          -- right. exists (d :: l1), d', l2. split; [reflexivity|]. split; auto. intros d0 [<-|J]; auto.
        * subst x. right. exists [], d, ds. split; [reflexivity|]. split; [intros d' []|]. split; [discriminate|]. apply (AV (Err m) N). auto.
        * subst x. right. exists [], d, ds. split; [reflexivity|]. split; [intros d' []|]. split; [discriminate|]. apply (AV (Panic m) N). auto.
        * congruence.
      + assert (GO : ok d -> comesTo (fun n => runCases p n callee ds) x -> comesTo (fun n => runCases p n callee (d :: ds)) x).
        { intros O [n0 H]. apply (AV (Ok tt) ltac:(discriminate)) in O as [n1 A1]. exists (n0 + n1)%nat. intros n Ln. cbn beta. rewrite RC, (A1 n ltac:(lia)). cbn [bind]. apply H. lia. }
        intros [(C1 & ->)|(l1 & d' & l2 & E & C1 & C2 & C3)].
        * apply GO; [apply C1; now left|]. apply (IH _ N). left. split; auto. intros d' J. apply C1. now right.
        * destruct l1 as [|d1 l1]; injection E as -> ->.
          -- apply (AV x N) in C3 as [n0 A]. exists n0. intros n Ln. cbn beta. rewrite RC, (A n Ln). destruct x as [[]| | |]; cbn [bind]; congruence.
          -- apply GO; [apply C1; now left|]. apply (IH x N). right. exists l1, d', l2. repeat split; auto. intros d0 J. apply C1. now right. }
  split; [|split].
  - rewrite (X (Ok tt) ltac:(discriminate)). split; [intros [(A & _)|(_ & _ & _ & _ & _ & F & _)]; [exact A|now contradiction F]|auto].
  - intros m. rewrite (X (Err m) ltac:(discriminate)). cbn [verdict]. split.
    + intros [(_ & F)|(l1 & d & l2 & A & B & _ & C)]; [discriminate|]. exists l1, d, l2. auto.
    + intros (l1 & d & l2 & A & B & C). right. exists l1, d, l2. repeat split; auto. discriminate.
  - intros m. rewrite (X (Panic m) ltac:(discriminate)). cbn [verdict]. split.
    + intros [(_ & F)|(l1 & d & l2 & A & B & _ & C)]; [discriminate|]. exists l1, d, l2. auto.
    + intros (l1 & d & l2 & A & B & C). right. exists l1, d, l2. repeat split; auto. discriminate.
Qed.
Print Assumptions C83_test.

(** For the declarations of C31 the tests pass. *)
Theorem C83_tests_pass : forall camel os fs r p, package camel os fs r p ->
  forall gr sg, classFiles camel r gr sg fs = true -> forall lim, lensFiles lim fs = true -> lim <= maxData -> ptrFiles fs = true -> roomyFiles fs r ->
  forall grow ords sel n rn c, (forall k, goodOrders (ords k)) -> (forall k vs, exists rest, Permutation (sel k vs ++ rest) vs) ->
  forall os', all_valid os' -> GenerateFiles grow ords sel os' n fs rn = Ok c ->
  forall e, In e (CorpusTests camel c) -> (forall d, In d (eCases e) -> blen d < lim) ->
  exists s, defines fs s /\ eName e = cat ["Test"; camel (sname s); "Corpus"] /\ (scontexts s = [] -> comesTo (fun n => runTest p n e) (Ok tt)).
Proof.
  intros camel os fs r p PK gr sg CL lim LF LM PT RO grow ords sel n rn c GO SE os' V G e I LD.
  apply in_flat_map in I as (u & Iu & J).
  destruct (constrained (svectors u)); [destruct J|destruct J as [<-|[]]]. destruct (suite_struct fs _ _ _ _ _ _ _ G u Iu) as (s & D & ES). exists s. split; auto. split; [now rewrite ES|].
  intros NC. cbn [eCases] in LD. unfold runTest. cbn [eCases eCallee].
  assert (A : forall d, In d (map fst (svectors u)) -> accepts camel p s d).
  { intros d Id. specialize (LD d Id). apply in_map_iff in Id as ([d' q] & <- & Iv). cbn [fst] in *.
    destruct (corpus_accepted camel os fs r p PK gr sg CL lim LF LM PT RO grow ords sel n rn c GO SE os' V G u d' q Iu Iv LD) as (s' & D' & N' & A').
    assert (s' = s).
    { apply defines_in in D, D'. pose proof (proj2 (pk_struct camel os fs r p PK (sname s) s (proj1 (proj2 (defines_in fs s) D))) (conj D eq_refl)) as Q.
      assert (N2 : sname s' = sname s) by congruence.
      pose proof (proj2 (pk_struct camel os fs r p PK (sname s) s' (proj1 (proj2 (defines_in fs s') D'))) (conj D' N2)) as B. congruence. }
    subst s'. auto. }
  rewrite <- ES. clear LD Iu ES. induction (map fst (svectors u)) as [|d ds IH]; [exists 0%nat; reflexivity|].
  destruct (IH (fun d' J => A d' (or_intror J))) as [n0 H]. destruct (A d (or_introl eq_refl)) as (fs1 & n1 & H1).
  exists (n0 + n1)%nat. intros m Lm. cbn [runCases]. rewrite (named_new camel os fs r p PK s D), (H1 m ltac:(lia)). apply H. lia.
Qed.
Print Assumptions C83_tests_pass.

(** The files of TvAccept.v: [elt] has no contexts, [pkt] has one.  And a test
    that fails. *)
Example C83_case : package camelX osX clsFiles clsR clsP /\ ptrFiles clsFiles = true /\ roomyFiles clsFiles clsR /\
  classFiles camelX clsR noneGreedy eltSingle clsFiles = true /\ lensFiles 256 clsFiles = true /\ defines clsFiles elt /\
  GenerateFiles goGrow (fun _ => uoX) allOf osX 50 clsFiles rngX = Ok (corpusOf goGrow clsFiles) /\
  CorpusTests camelX (corpusOf goGrow clsFiles) = [mkEmitted "TestEltCorpus" [[0; 3; 108; 119; 0]] "ParseElt" ["c.Data"]] /\
  map (runTest clsP 50) (CorpusTests camelX (corpusOf goGrow clsFiles)) = [Ok tt] /\
  map (fun e => map (runFuzz clsP 50 e) [[0; 3; 0]; [0; 2; 0]; [0; 9; 97; 0; 1]; []]) (Fuzzers camelX (corpusOf goGrow clsFiles)) = [[Ok 1; Ok 0; Ok 1; Ok 0]] /\
  map (runTest (theProg preFiles) 50) (CorpusTests camelX (corpusOf goGrow preFiles)) = [Err "integer constraint violated"].
Proof.
  split; [exact cls_package|]. split; [exact cls_ptr|]. split; [left; exact cls_solid|]. split; [exact cls_class|]. split; [vm_compute; reflexivity|].
  split; [split; [reflexivity|]; eexists; split; [left; reflexivity|left; reflexivity]|].
  split; [apply cls_corpus|]. repeat split; vm_compute; reflexivity.
Qed.
