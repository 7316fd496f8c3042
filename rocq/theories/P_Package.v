(** Properties C37-C39: what is written to disk, and the emitted tests.

    [fails n] says whether the n-th file operation fails and what a failed write
    leaves behind; [carriedOut] (PkgSpec.v) says how far a list of writes got. *)
From Coq Require Import ZArith String List Bool Lia.
From Verif Require Import Base Ast IntervalsModel InspectModel InspectSpec InspectProofs GoLang GenModel GenCheck GenPrint PackageSpec PackageProofs
  GenExamples GenWitness TvModel TvConstraints TvFacts TvWitness PkgModel PkgSpec PkgProofs PkgFacts.
Import ListNotations.
Open Scope string_scope.
Open Scope list_scope.
Open Scope Z_scope.

(** C37: after a success every vector is in its file and no other file has
    changed. *)
Theorem C37_corpus_on_disk : forall fails namer base c f f', writecorpus fails namer base c f = (Ok tt, f') -> noCollision namer (dataOf c) ->
  (forall s v, In s c -> In v (svectors s) -> fread f' (base ++ [stype s; "corpus"; namer (fst v)]) = Some (fst v)) /\
  (forall q, (forall s v, In s c -> In v (svectors s) -> q <> base ++ [stype s; "corpus"; namer (fst v)]) -> fread f' q = fread f q) /\
  fdirs f' = fdirs f ++ map (fun s => base ++ [stype s; "corpus"]) c.
Proof. exact corpus_written. Qed.
Print Assumptions C37_corpus_on_disk.

(** After a failure: the files of the first vectors, in order, are complete, and
    of the others only the one being written may have changed. *)
Theorem C37_failure : forall fails namer base c f e f', writecorpus fails namer base c f = (Err e, f') -> noCollision namer (dataOf c) ->
  exists done rest, corpusFiles namer base c = done ++ rest /\ flog f' = flog f ++ done /\
    (forall p b, In (p, b) done -> (forall b', hd_error rest <> Some (p, b')) -> fread f' p = Some b) /\
    (forall q, (forall b, ~ In (q, b) done) -> (forall b', hd_error rest <> Some (q, b')) -> fread f' q = fread f q) /\
    exists n left, fails n = Some (e, left).
Proof. exact corpus_stopped. Qed.
Print Assumptions C37_failure.

(** These are the only two outcomes. *)
Theorem C37_outcomes : forall fails namer base c f, (exists f', writecorpus fails namer base c f = (Ok tt, f')) \/
  (exists e f', writecorpus fails namer base c f = (Err e, f')).
Proof. exact corpus_outcomes. Qed.
Print Assumptions C37_outcomes.

Definition twoSuites : corpus := [mkSuite "a" [([1; 2], []); ([3], [])]; mkSuite "b" [([1; 2], [])]].
Definition nameX (b : bytes) : string := cat (map showByte b).
Definition emptyDisk : fsys := mkFS (fun _ => None) [] [] 0.
Example C37_case :
  noCollision nameX (dataOf twoSuites) /\
  fst (writecorpus (fun _ => None) nameX ["t"] twoSuites emptyDisk) = Ok tt /\
  fread (snd (writecorpus (fun _ => None) nameX ["t"] twoSuites emptyDisk)) ["t"; "b"; "corpus"; "0x10x2"] = Some [1; 2] /\
  fst (writecorpus (fun n => if Nat.eqb n 2 then Some ("disk full", Some []) else None) nameX ["t"] twoSuites emptyDisk) = Err "disk full".
Proof.
  split; [|repeat split; reflexivity]. intros a b A B. cbn in A, B.
  repeat (destruct A as [<-|A]; [|]); try (destruct A); repeat (destruct B as [<-|B]; [|]); try (destruct B); cbn; intros; auto; discriminate.
Qed.

(** C38: an emitted call has one argument, and ParseX takes one argument more
    than the struct has contexts.  So the call is right for structs without
    contexts. *)
Theorem C38_calls_partial : forall camel os fs r p, package camel os fs r p ->
  forall grow ords sel os2 n rn c, GenerateFiles grow ords sel os2 n fs rn = Ok c ->
  forall e, In e (CorpusTests camel c ++ Fuzzers camel c) ->
  exists s f, In s (definedStructs fs) /\ eCallee e = cat ["Parse"; camel (sname s)] /\
    alookup (camel (sname s)) (pctors p) = Some f /\ fparams f = scontexts s /\ List.length (eArgs e) = 1%nat.
Proof. exact emitted_calls. Qed.
Print Assumptions C38_calls_partial.

(** It is wrong for a struct that declares a context without using it: its
    vectors carry no constraints. *)
Theorem C38_calls_refuted : exists camel os fs r p grow ords sel os2 n rn c e f, package camel os fs r p /\
  GenerateFiles grow ords sel os2 n fs rn = Ok c /\ In e (CorpusTests camel c) /\
  eCallee e = "ParseUnused" /\ alookup "Unused" (pctors p) = Some f /\ List.length (eArgs e) <> S (List.length (fparams f)).
Proof.
  exists camelX, osX, unusedFiles, (theRes unusedFiles), (theProg unusedFiles), goGrow, (fun _ => uoX), allOf, osX, 50%nat, rngX.
  eexists. eexists. eexists. split; [exact unused_package|]. split; [exact unused_corpus|].
  split; [left; reflexivity|]. split; [reflexivity|]. split; [vm_compute; reflexivity|]. discriminate.
Qed.
Print Assumptions C38_calls_refuted.

Example C38_case : package camelX osX outFiles (theRes outFiles) (theProg outFiles) /\
  map (fun e => (eName e, eCallee e, eArgs e)) (CorpusTests camelX (corpusOf tight outFiles) ++ Fuzzers camelX (corpusOf tight outFiles)) =
  [("TestInCorpus", "ParseIn", ["c.Data"]); ("TestOutCorpus", "ParseOut", ["c.Data"]); ("FuzzIn", "ParseIn", ["data"]); ("FuzzOut", "ParseOut", ["data"])].
Proof. split; [apply package_of; vm_compute; reflexivity|vm_compute; reflexivity]. Qed.

(** C39: Package carries out its plan: gen-marshallers.go first; then nothing
    more if vectors are not implemented; otherwise the corpus, the tests and the
    fuzzers.  It stops at the first failure, which it returns, and returns [nil]
    only if everything was written. *)
Theorem C39_package_order : forall fails render renderTests renderFuzz namer camel dir prog vectors f,
  let r := PackageWith fails render renderTests renderFuzz namer camel dir prog vectors f in
  carriedOut fails (packagePlan render renderTests renderFuzz namer camel dir prog vectors) f (fst r) (snd r).
Proof. exact carried_package. Qed.
Print Assumptions C39_package_order.

(** In particular nothing is touched if code generation fails... *)
Theorem C39_no_code_no_files : forall fails render renderTests renderFuzz namer camel dir prog vectors f x,
  (p <- prog ;; render p) = x -> (forall b, x <> Ok b) ->
  PackageWith fails render renderTests renderFuzz namer camel dir prog vectors f = (_ <- x ;; Ok tt, f).
Proof. exact package_no_code. Qed.
Print Assumptions C39_no_code_no_files.

(** ... and without failures the result is [nil] and the log is the plan. *)
Theorem C39_no_failure : forall render renderTests renderFuzz namer camel dir prog vectors f l,
  packagePlan render renderTests renderFuzz namer camel dir prog vectors = known l ->
  let r := PackageWith (fun _ => None) render renderTests renderFuzz namer camel dir prog vectors f in
  fst r = Ok tt /\ flog (snd r) = flog f ++ l /\ forall q, fread (snd r) q = written l (fread f) q.
Proof. exact package_succeeds. Qed.
Print Assumptions C39_no_failure.

Definition showX (_ : program) : outcome bytes := Ok [80].
Definition packX (fails : nat -> option (string * option bytes)) (vectors : outcome corpus) :=
  PackageWith fails showX (fun _ => Ok [84]) (fun _ => Ok [70]) nameX camelX ["out"] (Ok (theProg outFiles)) vectors emptyDisk.
Example C39_case :
  map fst (flog (snd (packX (fun _ => None) (Ok twoSuites)))) =
    [["out"; "gen-marshallers.go"]; ["out"; "testdata"; "fuzz"; "a"; "corpus"; "0x10x2"]; ["out"; "testdata"; "fuzz"; "a"; "corpus"; "0x3"];
     ["out"; "testdata"; "fuzz"; "b"; "corpus"; "0x10x2"]; ["out"; "gen-marshallers_test.go"]; ["out"; "gen-fuzz.go"]] /\
  packX (fun _ => None) (Err "not implemented") = (Ok tt, snd (packX (fun _ => None) (Err "conflicting constraint"))) /\
  fst (packX (fun _ => None) (Err "conflicting constraint")) = Err "conflicting constraint" /\
  map fst (flog (snd (packX (fun n => if Nat.eqb n 3 then Some ("full", None) else None) (Ok twoSuites)))) =
    [["out"; "gen-marshallers.go"]; ["out"; "testdata"; "fuzz"; "a"; "corpus"; "0x10x2"]].
Proof. repeat split; reflexivity. Qed.
