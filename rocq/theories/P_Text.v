(** Property C86: the text that is written is Go, and means what was declared.

    [MarshallersText camel pkg os fs]: the text that gen.Marshallers hands to
    imports.Process, character by character (TextModel.v).  [readGo n s]: the package
    and the declarations that a Go compiler reads in the text [s], by the rules of the
    Go specification for tokens, semicolons, operators and statements, to the depth
    [n] (GoText.v).  [programOf ds]: the program that the declarations make up.
    [namesFiles]: the names are Go names, and clash with nothing (CompileCheck.v). *)
From Coq Require Import ZArith String List Bool Lia Permutation.
From Verif Require Import PegModel PegGrammar PegTop.
From Verif Require Import Base Ast IntervalsModel InspectModel InspectSpec InspectProofs GoLang GenModel GenCheck WireSpec WireProofs WireComplete GenTerm WireFacts
  PackageSpec PackageProofs PackageFacts GoTypes CompileCheck CompileProg CompileNeeds GenExamples GenWitness GoldenExamples P_Parse P_Compile
  GoText TextModel TextSame TextCheck TextOnce TextProg.
Import ListNotations.
Open Scope string_scope.
Open Scope list_scope.
Open Scope Z_scope.

(** The text is that of a Go file of the package.  It declares the types, methods and functions
    of the modelled program and nothing else.  Parameters have the types of their contexts. *)
Theorem C86_text_is_go : forall camel os fs r p pkg, package camel os fs r p -> namesFiles camel fs = true -> goName pkg = true ->
  exists text ds k, MarshallersText camel pkg os fs = Ok text /\ (forall n, (k <= n)%nat -> readGo n text = Some (pkg, ds)) /\
    Permutation (typesOf ds) (ptypes p) /\ methodsOf ds = pmethods p /\ funcsOf ds = pctors p /\
    (forall d, In d ds -> match d with DType _ _ => True | DMethod _ ts f | DFunc _ ts f => ts = map camel (fparams f) end).
Proof.
  intros camel os fs r p pkg PK NM G. destruct (text_program camel os fs r p PK NM pkg G) as (text & ds & k & A & B & C & D & E & F & _).
  exists text, ds, k. repeat (split; [assumption|]). rewrite Forall_forall in F. exact F.
Qed.
Print Assumptions C86_text_is_go.

(** It is read in one way only. *)
Theorem C86_read_once : forall n m s x y, readGo n s = Some x -> readGo m s = Some y -> x = y.
Proof. exact read_once. Qed.
Print Assumptions C86_read_once.

(** What was read runs like the modelled program: all that is proved of Parse and ParseX holds of
    the text.  The same for whether it compiles. *)
Theorem C86_text_runs : forall camel os fs r p pkg, package camel os fs r p -> namesFiles camel fs = true -> goName pkg = true ->
  forall text n pkg' ds, MarshallersText camel pkg os fs = Ok text -> readGo n text = Some (pkg', ds) ->
  pkg' = pkg /\ (compiles camel (programOf ds) = true <-> fitsFiles r fs = true) /\
  forall m s data args, (forall fs0, runParse camel (programOf ds) m s fs0 data args = runParse camel p m s fs0 data args) /\
    runNew camel (programOf ds) m s data args = runNew camel p m s data args.
Proof.
  intros camel os fs r p pkg PK NM G text n pkg' ds M R. destruct (text_program camel os fs r p PK NM pkg G) as (text' & ds' & k & A & B & C & D & E & _ & S).
  rewrite M in A. injection A as <-. specialize (B k (Nat.le_refl k)). pose proof (read_once _ _ _ _ _ R B) as X. injection X as -> ->.
  split; auto. split.
  - rewrite (compiles_same camel (programOf ds') p); auto; [exact (compiles_iff camel os fs r p PK NM)|apply S].
  - intros m s data args. split; [intros fs0; now apply call_same|now apply ctor_same].
Qed.
Print Assumptions C86_text_runs.

(** In particular the text accepts what is an encoding, and reports an error on what is not. *)
Theorem C86_text_accepts_exactly : forall camel os fs r p pkg, package camel os fs r p -> namesFiles camel fs = true -> goName pkg = true ->
  forall text n ds, MarshallersText camel pkg os fs = Ok text -> readGo n text = Some (pkg, ds) ->
  forall s fs0 data args, validCall camel fs r s fs0 data args -> ptrFiles fs = true -> narrowFiles fs r ->
  forall rank, progress fs r rank -> (forall s', defines fs s' -> forallb totalM (members_of s') = true) -> blen data <= maxData ->
  (exists w rest fs1, data = w ++ rest /\ encStruct camel (Constant r) (Struct r) False (contextsOf s args) s fs0 w rest fs1 /\
     parses camel (programOf ds) s fs0 data args fs1 rest) \/
  ((forall w rest fs1, data = w ++ rest -> ~ encStruct camel (Constant r) (Struct r) False (contextsOf s args) s fs0 w rest fs1) /\
   exists e, fails camel (programOf ds) s fs0 data args e).
Proof.
  intros camel os fs r p pkg PK NM G text n ds M R s fs0 data args VC PT NA rank PR TT L.
  destruct (C86_text_runs camel os fs r p pkg PK NM G text n pkg ds M R) as (_ & _ & X).
  destruct (C12_accepts_exactly camel os fs r p PK s fs0 data args VC PT NA rank PR TT L) as [(w & rest & fs1 & E & En & k & P)|(N & e & k & P)].
  - left. exists w, rest, fs1. split; auto. split; auto. exists k. intros j J. specialize (P j J). destruct (X j s data args) as [Y _]. now rewrite Y.
  - right. split; auto. exists e, k. intros j J. specialize (P j J). destruct (X j s data args) as [Y _]. now rewrite Y.
Qed.
Print Assumptions C86_text_accepts_exactly.

Example C86_case : package camelX osX demo demoR demoP /\ namesFiles camelX demo = true /\ goName "demo" = true /\
  exists text ds, MarshallersText camelX "demo" osX demo = Ok text /\ readGo 100 text = Some ("demo", ds) /\
    map fst (methodsOf ds) = map fst (pmethods demoP) /\ runParse camelX (programOf ds) 50 msg (blank camelX (Constant demoR) msg) (msgBytes ++ msgRest) [optsV 2] = (VStruct "Msg" msgFields, SRet (VBytes msgRest) VNil).
Proof.
  split; [exact demo_package|]. split; [vm_compute; reflexivity|]. split; [reflexivity|].
  eexists _, _. split; [vm_compute; reflexivity|]. split; [vm_compute; reflexivity|]. split; vm_compute; reflexivity.
Qed.

(** Without the condition on names the text need not be Go: a context named like a keyword. *)
Theorem C86_keyword_refuted : exists src f r p text, returns (textOf src) (Ok f) /\ package camelX osX [f] r p /\
  MarshallersText camelX "main" osX [f] = Ok text /\ forall n, readGo n text = None.
Proof.
  exists "context range { u8 n; } struct x with context range { u8 a; }".
  exists (mkFile [] [mkCtx "range" [("n", TInt 8 None)]] [mkStruct "x" ["range"] (Some [MField "a" (TInt 8 None)])] []). eexists _, _, _.
  split; [apply (returns_some _ 4000%nat); vm_compute; reflexivity|].
  split; [apply package_of; vm_compute; reflexivity|].
  split; [vm_compute; reflexivity|].
  intros n. do 40 (destruct n as [|n]; [vm_compute; reflexivity|]). vm_compute. reflexivity.
Qed.
Print Assumptions C86_keyword_refuted.
