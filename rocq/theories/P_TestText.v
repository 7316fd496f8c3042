(** Property C87: the text of the tests and of the fuzz functions.

    [TestsText camel pkg c] and [FuzzText camel pkg c]: the texts that gen.CorpusTests and
    gen.Fuzzers hand to imports.Process, character by character (TestTextModel.v), for a corpus
    whose data may be nil.  [readTests n s] and [readFuzzers n s]: the table tests and the fuzz
    functions that a Go compiler reads in a text, to the depth [n] (GoTestText.v, GoText.v);
    a [harness] has a name, the inputs written in it, and the function that it calls.
    [constraintsOf]: the build constraints of a file. *)
From Coq Require Import ZArith String Ascii List Bool Lia Permutation.
From Verif Require Import Base Ast IntervalsModel InspectModel InspectSpec InspectProofs GoLang GenModel GenCheck GenPrint GenSimBody WireSpec WireProofs WireFacts GenSafe
  ReachSpec ReachProofs FaultProofs WireComplete PackageSpec PackageProofs PackageFacts PackageMore TvModel TvConstraints TvFacts TvClass TvGood TvAccept TvBytes PkgModel PkgFacts
  BuildProofs GenExamples GenWitness TvWitness P_Harness HarnessModel GoTypes CompileCheck GoText TextModel TextLex TextSame TextOnce TextProg GoTestText TestTextModel TestTextProofs P_Text.
Import ListNotations.
Open Scope string_scope.
Open Scope list_scope.
Open Scope Z_scope.

(** Suites whose vectors all parse without anything that a caller has to supply. *)
Definition unconditional (s : rawSuite) : bool := forallb (fun v => match snd v with [] => true | _ :: _ => false end) (snd s).
(** What the corpus asks for. *)
Definition wantTests (camel : string -> string) (c : list rawSuite) : list harness :=
  map (fun s => mkHarness ("Test" ++ camel (fst s) ++ "Corpus") (map (fun v => plainData (fst v)) (snd s)) ("Parse" ++ camel (fst s))) (filter unconditional c).
Definition wantFuzz (camel : string -> string) (c : list rawSuite) : list harness :=
  map (fun s => mkHarness ("Fuzz" ++ camel (fst s)) [] ("Parse" ++ camel (fst s))) (filter unconditional c).

Lemma unconditional_raw : forall s, constrainedRaw (snd s) = negb (unconditional s).
Proof. intros [x vs]. unfold constrainedRaw, unconditional. cbn [snd]. induction vs as [|[d [|q l]] vs IH]; [reflexivity| |reflexivity]. cbn [existsb forallb snd orb andb]. exact IH. Qed.
Lemma want_tests : forall camel c, map harnessOf (CorpusTests camel (plain c)) = wantTests camel c.
Proof.
  intros camel c. unfold wantTests. induction c as [|s c IH]; [reflexivity|]. cbn [plain map CorpusTests flat_map filter svectors stype]. fold (plain c). rewrite constrained_plain, unconditional_raw, map_app. fold (CorpusTests camel (plain c)). rewrite IH.
  destruct (unconditional s); cbn [negb map app]; [|reflexivity]. unfold harnessOf at 1. cbn [eName eCases eCallee]. rewrite map_map. reflexivity.
Qed.
Lemma want_fuzz : forall camel c, map harnessOf (Fuzzers camel (plain c)) = wantFuzz camel c.
Proof.
  intros camel c. unfold wantFuzz. induction c as [|s c IH]; [reflexivity|]. cbn [plain map Fuzzers flat_map filter svectors stype]. fold (plain c). rewrite constrained_plain, unconditional_raw, map_app. fold (Fuzzers camel (plain c)). rewrite IH.
  destruct (unconditional s); reflexivity.
Qed.

Lemma file_up : forall n m s, (n <= m)%nat -> le (pFile n (tokens s)) (pFile m (tokens s)).
Proof. intros n m s L. pose proof (imports_up n m L). pose proof (decls_up n m L). unfold pFile. mono. Qed.
Lemma file_once : forall A (f : gd -> option A) n m s x y,
  ('(p, ds) <-? pFile n (tokens s) ;; 'hs <-? all f ds ;; Some (p, hs)) = Some x -> ('(p, ds) <-? pFile m (tokens s) ;; 'hs <-? all f ds ;; Some (p, hs)) = Some y -> x = y.
Proof.
  intros A f n m s x y H1 H2. destruct (pFile n (tokens s)) as [[p1 d1]|] eqn:E1; [|discriminate]. destruct (pFile m (tokens s)) as [[p2 d2]|] eqn:E2; [|discriminate].
  apply (file_up n (Nat.max n m)) in E1; [|lia]. apply (file_up m (Nat.max n m)) in E2; [|lia]. rewrite E1 in E2. injection E2 as -> ->. congruence.
Qed.

(** Conditions: names of which Go names can be made, and bytes. *)
Definition goodSuite (camel : string -> string) (s : rawSuite) : Prop :=
  identTail (camel (fst s)) = true /\ forall v, In v (snd s) -> all_bytes (plainData (fst v)).
Lemma good_raw : forall camel c, (forall s, In s c -> goodSuite camel s) -> Forall (rawOk camel) c.
Proof. intros camel c H. apply Forall_forall. intros s I. destruct (H s I) as [A B]. split; auto. apply Forall_forall. intros v J. exact (B v J). Qed.

(** The file of tests is a Go file of the package, that is always built.  It has a test for each
    suite without constraints, in order, over exactly its data, which calls ParseX, and nothing else. *)
Theorem C87_tests_text : forall camel pkg c, goName pkg = true -> (forall s, In s c -> goodSuite camel s) ->
  exists k, forall n, (k <= n)%nat -> readTests n (TestsText camel pkg c) = Some (pkg, wantTests camel c).
Proof.
  intros camel pkg c G H. pose proof (tests_declare camel c (good_raw _ _ H)) as D. rewrite want_tests in D.
  destruct (read_by _ testOf (join [markS; pkgS pkg]) pkg _ _ (header_text pkg G) D) as (k & K). exists k. intros n L. unfold readTests, TestsText.
  replace (join [markS; pkgS pkg; join (map (testS camel) c)]) with (join [markS; pkgS pkg] ++ join (map (testS camel) c))%string by (cbn [join]; rewrite !append_nil, !append_assoc; reflexivity).
  exact (K n L).
Qed.
Print Assumptions C87_tests_text.

Lemma fuzz_header : forall pkg, goName pkg = true -> run (sGap false) (join [markS; join ["// +build gofuzz"; nl; nl]; pkgS pkg]) = ([tkKey "package"; tkId pkg; tkOp ";"], sGap false).
Proof.
  intros pkg G. change (join [markS; join ["// +build gofuzz"; nl; nl]; pkgS pkg]) with (markS ++ join ["// +build gofuzz"; nl; nl] ++ pkgS pkg ++ "")%string. rewrite (append_nil (pkgS pkg)), run_app.
  replace (run (sGap false) markS) with (@nil token, sGap false) by (vm_compute; reflexivity). cbn [fst snd]. rewrite run_app.
  replace (run (sGap false) (join ["// +build gofuzz"; nl; nl])) with (@nil token, sGap false) by (vm_compute; reflexivity). cbn [fst snd].
  pose proof (header_text pkg G) as H. change (join [markS; pkgS pkg]) with (markS ++ pkgS pkg ++ "")%string in H. rewrite (append_nil (pkgS pkg)), run_app in H.
  replace (run (sGap false) markS) with (@nil token, sGap false) in H by (vm_compute; reflexivity). cbn [fst snd] in H. rewrite !pre_nil in *. exact H.
Qed.

(** The same for the file of fuzz functions, which is built with the tag gofuzz only. *)
Theorem C87_fuzz_text : forall camel pkg c, goName pkg = true -> (forall s, In s c -> identTail (camel (fst s)) = true) ->
  exists k, forall n, (k <= n)%nat -> readFuzzers n (FuzzText camel pkg c) = Some (pkg, wantFuzz camel c).
Proof.
  intros camel pkg c G H.
  assert (D : declaresBy fuzzOf (join (map (fuzzS camel) c)) (wantFuzz camel c)).
  { clear G. unfold wantFuzz. induction c as [|s c IH]; [apply by_nil|]. cbn [map join filter]. specialize (IH (fun s J => H s (or_intror J))).
    pose proof (unconditional_raw s) as U. destruct (unconditional s) eqn:E; cbn [negb] in U.
    - cbn [map]. apply (by_cat _ fuzzOf _ [_]); auto. apply (fuzz_decl camel s (H s (or_introl eq_refl)) U).
    - unfold fuzzS at 1. rewrite U. exact IH. }
  destruct (read_by _ fuzzOf (join [markS; join ["// +build gofuzz"; nl; nl]; pkgS pkg]) pkg _ _ (fuzz_header pkg G) D) as (k & K). exists k. intros n L. unfold readFuzzers, FuzzText.
  replace (join [markS; join ["// +build gofuzz"; nl; nl]; pkgS pkg; join (map (fuzzS camel) c)]) with (join [markS; join ["// +build gofuzz"; nl; nl]; pkgS pkg] ++ join (map (fuzzS camel) c))%string
    by (cbn [join]; rewrite !append_nil, !append_assoc; reflexivity).
  exact (K n L).
Qed.
Print Assumptions C87_fuzz_text.

(** Build constraints, whatever follows. *)
Lemma lines_cons : forall a c s, Ascii.eqb c newline = false -> linesOf a (String c s) = linesOf (a ++ one c) s.
Proof. intros a c s H. cbn [linesOf]. now rewrite H. Qed.
Lemma package_stops : forall ls a s, prefix "package" a = true -> buildTags ls (linesOf a s) = [].
Proof.
  intros ls a s. revert a. induction s as [|c s IH]; intros a P.
  - cbn [linesOf buildTags]. destruct a as [|x a]; [discriminate|]. destruct (Ascii.ascii_dec "p" x) as [<-|N]; [reflexivity|]. cbn [prefix] in P. destruct (Ascii.ascii_dec "p" x); [contradiction|discriminate].
  - cbn [linesOf]. destruct (Ascii.eqb c newline).
    + cbn [buildTags]. destruct a as [|x a]; [discriminate|]. cbn [prefix] in P. destruct (Ascii.ascii_dec "p" x) as [<-|N]; [reflexivity|discriminate].
    + apply IH. clear IH. revert P. generalize "package"%string as w. induction a as [|x a IHa]; intros w P; destruct w as [|y w]; auto; try (cbn in P; discriminate); cbn [append one prefix] in *; auto.
      destruct (Ascii.ascii_dec y x); auto.
Qed.
Theorem C87_build : forall camel pkg c, constraintsOf (TestsText camel pkg c) = [] /\ constraintsOf (FuzzText camel pkg c) = ["gofuzz"].
Proof.
  intros camel pkg c. split; unfold constraintsOf, TestsText, FuzzText, pkgS; cbn [join]; rewrite !append_assoc.
  - generalize (pkg ++ nl ++ nl ++ "" ++ join (map (testS camel) c) ++ "")%string. intros s. exact (package_stops [] "package " s eq_refl).
  - generalize (pkg ++ nl ++ nl ++ "" ++ join (map (fuzzS camel) c) ++ "")%string. intros s.
    change (buildTags [] (linesOf "" (markS ++ "// +build gofuzz" ++ nl ++ nl ++ "" ++ "package " ++ s))) with ("gofuzz" :: buildTags [] (linesOf "package " s)). now rewrite package_stops.
Qed.
Print Assumptions C87_build.

(** The texts are read in one way only. *)
Theorem C87_read_once : forall n m s x y,
  (readTests n s = Some x -> readTests m s = Some y -> x = y) /\ (readFuzzers n s = Some x -> readFuzzers m s = Some y -> x = y).
Proof. intros n m s x y. split; apply file_once. Qed.
Print Assumptions C87_read_once.

(** The functions that were read, with the parser that was read (C86), do what the functions of
    HarnessModel.v do with the modelled parser: what C83 says holds of the three texts. *)
Definition emittedOf (h : harness) : emitted := mkEmitted (hName h) (hTable h) (hCallee h) [].
Lemma tail_name : forall x, goName x = true -> identTail x = true.
Proof. intros [|c x] H; [discriminate|]. cbn [goName identTail] in *. apply andb_prop in H as [H _]. apply andb_prop in H as [H _]. apply andb_prop in H as [A B]. now rewrite A, B. Qed.

Lemma length_append : forall a b : string, String.length (a ++ b) = (String.length a + String.length b)%nat.
Proof. induction a as [|c a IH]; intros b; cbn [append String.length]; [reflexivity|]. now rewrite IH. Qed.

Section Whole.
Variable camel : string -> string.
Variable os : nat -> orders.
Variable fs : list file.
Variable r : resolver.
Variable p : program.
Hypothesis PK : package camel os fs r p.
Hypothesis NM : namesFiles camel fs = true.
Variable pkg : string.
Hypothesis GP : goName pkg = true.
Variable grow : nat -> nat -> nat.
Variable ords : nat -> uorders.
Variable sel : nat -> list vec -> list vec.
Variable os' : nat -> orders.
Variable k : nat.
Variable rn : rng.
Variable c : list rawSuite.
Hypothesis GF : GenerateFiles grow ords sel os' k fs rn = Ok (plain c).

Lemma suites_good : forall s, In s c -> goodSuite camel s.
Proof.
  intros s I. assert (J : In (mkSuite (fst s) (map (fun v => (plainData (fst v), snd v)) (snd s))) (plain c)) by (unfold plain; apply in_map_iff; eauto).
  split.
  - destruct (suite_struct fs _ _ _ _ _ _ _ GF _ J) as (st & D & E). cbn [stype] in E. rewrite <- E. apply defines_in in D. destruct (struct_name camel fs NM st D) as [G _]. now apply tail_name.
  - intros v Iv. refine (vector_bytes fs _ _ _ _ _ _ _ GF _ (plainData (fst v)) (snd v) J _). cbn [svectors]. apply in_map_iff. eauto.
Qed.
Variable text : string.
Variable n : nat.
Variable ds : list decl.
Hypothesis MT : MarshallersText camel pkg os fs = Ok text.
Hypothesis RG : readGo n text = Some (pkg, ds).
Lemma named_text : forall m callee data, callNamed (programOf ds) m callee data = callNamed p m callee data.
Proof.
  intros m callee data. destruct (text_program camel os fs r p PK NM pkg GP) as (text' & ds' & k' & A & B & _ & _ & F & _ & S).
  rewrite MT in A. injection A as <-. specialize (B k' (Nat.le_refl k')). pose proof (read_once _ _ _ _ _ RG B) as X. injection X as ->.
  unfold callNamed. cbn [programOf pctors]. rewrite F. destruct (find _ (pctors p)) as [[ty f]|]; auto. now apply ctor_same.
Qed.
Lemma cases_text : forall m callee l, runCases (programOf ds) m callee l = runCases p m callee l.
Proof. intros m callee l. induction l as [|d l IH]; [reflexivity|]. cbn [runCases]. rewrite named_text. destruct (callNamed p m callee d) as [|v1 v2| |]; auto. destruct v2; auto. Qed.
End Whole.

Theorem C87_runs : forall camel os fs r p pkg, package camel os fs r p -> namesFiles camel fs = true -> goName pkg = true ->
  forall grow ords sel os' k rn c, GenerateFiles grow ords sel os' k fs rn = Ok (plain c) ->
  forall text n ds, MarshallersText camel pkg os fs = Ok text -> readGo n text = Some (pkg, ds) ->
  (exists i ts, readTests i (TestsText camel pkg c) = Some (pkg, ts)) /\ (exists i zs, readFuzzers i (FuzzText camel pkg c) = Some (pkg, zs)) /\
  (forall i ts, readTests i (TestsText camel pkg c) = Some (pkg, ts) ->
     Forall2 (fun h e => hName h = eName e /\ forall m, runTest (programOf ds) m (emittedOf h) = runTest p m e) ts (CorpusTests camel (plain c))) /\
  (forall i zs, readFuzzers i (FuzzText camel pkg c) = Some (pkg, zs) ->
     Forall2 (fun h e => hName h = eName e /\ forall m data, runFuzz (programOf ds) m (emittedOf h) data = runFuzz p m e data) zs (Fuzzers camel (plain c))).
Proof.
  intros camel os fs r p pkg PK NM G grow ords sel os' k rn c GF text n ds M R.
  pose proof (suites_good camel fs NM grow ords sel os' k rn c GF) as GS.
  destruct (C87_tests_text camel pkg c G GS) as (k1 & T1). destruct (C87_fuzz_text camel pkg c G (fun s I => proj1 (GS s I))) as (k2 & T2).
  pose proof (named_text camel os fs r p PK NM pkg G text n ds M R) as NT. pose proof (cases_text camel os fs r p PK NM pkg G text n ds M R) as CT.
  split; [eexists _, _; apply (T1 k1); lia|]. split; [eexists _, _; apply (T2 k2); lia|]. split.
  - intros i ts RT. pose proof (proj1 (C87_read_once _ _ _ _ _) RT (T1 k1 (Nat.le_refl _))) as X. injection X as ->. rewrite <- want_tests.
    induction (CorpusTests camel (plain c)) as [|e l IH]; cbn [map]; constructor; auto. split; [reflexivity|]. intros m. unfold runTest. apply CT.
  - intros i zs RZ. pose proof (proj2 (C87_read_once _ _ _ _ _) RZ (T2 k2 (Nat.le_refl _))) as X. injection X as ->. rewrite <- want_fuzz.
    induction (Fuzzers camel (plain c)) as [|e l IH]; cbn [map]; constructor; auto. split; [reflexivity|]. intros m data. unfold runFuzz. cbn [emittedOf eCallee harnessOf hCallee]. now rewrite NT.
Qed.
Print Assumptions C87_runs.

(** So for the declarations of C31 the tests in the text pass with the parser in the text. *)
Theorem C87_tests_pass : forall camel os fs r p pkg, package camel os fs r p -> namesFiles camel fs = true -> goName pkg = true ->
  forall gr sg, classFiles camel r gr sg fs = true -> forall lim, lensFiles lim fs = true -> lim <= maxData -> ptrFiles fs = true -> roomyFiles fs r ->
  forall grow ords sel k rn c, (forall j, goodOrders (ords j)) -> (forall j vs, exists rest, Permutation (sel j vs ++ rest) vs) ->
  forall os', all_valid os' -> GenerateFiles grow ords sel os' k fs rn = Ok (plain c) ->
  forall text n ds, MarshallersText camel pkg os fs = Ok text -> readGo n text = Some (pkg, ds) ->
  forall i ts, readTests i (TestsText camel pkg c) = Some (pkg, ts) ->
  forall h, In h ts -> (forall d, In d (hTable h) -> blen d < lim) ->
  exists s, defines fs s /\ hName h = ("Test" ++ camel (sname s) ++ "Corpus")%string /\ hCallee h = ("Parse" ++ camel (sname s))%string /\
    (scontexts s = [] -> comesTo (fun m => runTest (programOf ds) m (emittedOf h)) (Ok tt)).
Proof.
  intros camel os fs r p pkg PK NM G gr sg CL lim LF LM PT RO grow ords sel k rn c GO SE os' V GF text n ds M R i ts RT h Ih LD.
  pose proof (suites_good camel fs NM grow ords sel os' k rn c GF) as GS.
  destruct (C87_tests_text camel pkg c G GS) as (k1 & T1). pose proof (proj1 (C87_read_once _ _ _ _ _) RT (T1 k1 (Nat.le_refl _))) as X. injection X as ->.
  rewrite <- want_tests in Ih. apply in_map_iff in Ih as (e & <- & Ie). cbn [harnessOf hTable hName hCallee] in *.
  pose proof Ie as Ie2. apply in_flat_map in Ie2 as (u & Iu & J). destruct (constrained (svectors u)); [destruct J|destruct J as [Ee|[]]].
  destruct (C83_tests_pass camel os fs r p PK gr sg CL lim LF LM PT RO grow ords sel k rn (plain c) GO SE os' V GF e Ie LD) as (s & D & E & P).
  exists s. split; auto. split; [rewrite E; reflexivity|].
  assert (N : camel (stype u) = camel (sname s)).
  { rewrite <- Ee in E. cbn [eName] in E. rewrite !cat3 in E.
    assert (X : forall a b : string, ("Test" ++ a ++ "Corpus")%string = ("Test" ++ b ++ "Corpus")%string -> a = b).
    { intros a b H. cbn [append] in H. injection H as H. revert b H. induction a as [|ca a IHa]; intros [|cb b] H; auto.
      - exfalso. cbn [append] in H. apply (f_equal String.length) in H. cbn [String.length append] in H. rewrite length_append in H. cbn in H. lia.
      - exfalso. cbn [append] in H. apply (f_equal String.length) in H. cbn [String.length append] in H. rewrite length_append in H. cbn in H. lia.
      - cbn [append] in H. injection H as -> H. f_equal. auto. }
    exact (X _ _ E). }
  split; [rewrite <- Ee; cbn [eCallee]; rewrite <- N; reflexivity|].
  intros NC. destruct (P NC) as (m0 & Q). exists m0. intros m Lm. specialize (Q m Lm). unfold runTest in *.
  rewrite (cases_text camel os fs r p PK NM pkg G text n ds M R). exact Q.
Qed.
Print Assumptions C87_tests_pass.

(** The files of TvAccept.v: [elt] gets a test, [pkt] has a context and gets none; a text with nil, empty and long data. *)
Definition rawOf (c : corpus) : list rawSuite := map (fun s => (stype s, map (fun v => (Some (fst v), snd v)) (svectors s))) c.
Example C87_case : package camelX osX clsFiles clsR clsP /\ namesFiles camelX clsFiles = true /\ goName "cls" = true /\
  GenerateFiles goGrow (fun _ => uoX) allOf osX 50 clsFiles rngX = Ok (plain (rawOf (corpusOf goGrow clsFiles))) /\
  readTests 50 (TestsText camelX "cls" (rawOf (corpusOf goGrow clsFiles))) = Some ("cls", [mkHarness "TestEltCorpus" [[0; 3; 108; 119; 0]] "ParseElt"]) /\
  readFuzzers 50 (FuzzText camelX "cls" (rawOf (corpusOf goGrow clsFiles))) = Some ("cls", [mkHarness "FuzzElt" [] "ParseElt"]) /\
  (exists text ds, MarshallersText camelX "cls" osX clsFiles = Ok text /\ readGo 100 text = Some ("cls", ds) /\
     runTest (programOf ds) 50 (mkEmitted "TestEltCorpus" [[0; 3; 108; 119; 0]] "ParseElt" []) = Ok tt) /\
  readTests 50 (TestsText camelX "x" [("a", [(None, []); (Some [], []); (Some [0; 9; 16; 255], [])]); ("b", [(Some [1], [("k", [("n", 1)])])]); ("c", [])])
    = Some ("x", [mkHarness "TestACorpus" [[]; []; [0; 9; 16; 255]] "ParseA"; mkHarness "TestCCorpus" [] "ParseC"]).
Proof.
  split; [exact cls_package|]. split; [vm_compute; reflexivity|]. split; [reflexivity|]. split; [eapply eq_trans; [apply cls_corpus|vm_compute; reflexivity]|].
  split; [vm_compute; reflexivity|]. split; [vm_compute; reflexivity|]. split; [|vm_compute; reflexivity].
  eexists _, _. split; [vm_compute; reflexivity|]. split; [vm_compute; reflexivity|]. vm_compute. reflexivity.
Qed.
