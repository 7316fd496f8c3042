(** Properties C53-C56 and C58: the command line tool, from source files to files on disk.

    [build] is [trunnel build] (BuildModel.v).  [readAs d name f]: the file
    [name] has a content that denotes [f] in the grammar of SyntaxSpec.v.
    [output dir fs q] and [corpusDir dir nm h] name the files that a build
    writes (BuildProofs.v); [accepts camel p s d]: [ParseX(d)] of the package
    [p] returns no error. *)
From Coq Require Import ZArith String Ascii List Bool Lia Permutation.
From Verif Require Import PegModel PegGrammar PegTop SyntaxSpec PegExact.
From Verif Require Import Base Ast IntervalsModel InspectModel InspectSpec InspectProofs GoLang GenModel GenCheck GenPrint WireSpec WireProofs WireComplete
  PackageSpec PackageProofs PackageFacts PackageMore TvModel TvConstraints TvFacts TvClass TvGood TvAccept PkgModel PkgSpec PkgProofs PkgFacts
  GenExamples GenWitness TvWitness P_Package TvFinish TvSucceed GenTerm BuildModel BuildProofs BuildMore.
Import ListNotations.
Open Scope string_scope.
Open Scope list_scope.
Open Scope Z_scope.

(** C53: without arguments, or with a file that cannot be read or is not in the
    language, the tool returns an error and touches nothing. *)
Theorem C53_bad_sources : forall w dir names f,
  names = [] \/ (exists name, In name names /\ forall fl, ~ readAs (inputs w f) name fl) ->
  exists e m0, forall m n, (m0 <= m)%nat -> build w m n dir names f = (Err e, f).
Proof. exact build_bad. Qed.
Print Assumptions C53_bad_sources.
(** Otherwise it does what gen.Package does with the files denoted. *)
Theorem C53_good_sources : forall w dir names f fs, names <> [] -> Forall2 (readAs (inputs w f)) names fs ->
  exists m0, forall m n, (m0 <= m)%nat -> build w m n dir names f =
    Package (bFails w) (bRender w) (bTests w) (bFuzz w) (bNamer w) (bCamel w) dir
            (bGrow w) (bOrds w) (bSel w) (bOrders1 w) (bOrders2 w) n (bRng w) fs f.
Proof. exact build_good. Qed.
Print Assumptions C53_good_sources.

(** C54: whether the build succeeds or not, only its own outputs change. *)
Theorem C54_only_outputs : forall w m n dir names f q, fread (snd (build w m n dir names f)) q <> fread f q ->
  exists fs, Forall2 (readAs (inputs w f)) names fs /\ output dir fs q.
Proof. exact only_outputs. Qed.
Print Assumptions C54_only_outputs.

(** C55: after a success the outputs are there, made from what the sources denote. *)
Theorem C55_outputs : forall w m n dir names f f', build w m n dir names f = (Ok tt, f') ->
  exists fs p b, Forall2 (readAs (inputs w f)) names fs /\ Marshallers (bCamel w) (bOrders1 w) fs = Ok p /\ bRender w p = Ok b /\
    fread f' (dir ++ ["gen-marshallers.go"]) = Some b /\
    ((GenerateFiles (bGrow w) (bOrds w) (bSel w) (bOrders2 w) n fs (bRng w) = Err "not implemented" /\
      forall q, q <> dir ++ ["gen-marshallers.go"] -> fread f' q = fread f q) \/
     exists c t z, GenerateFiles (bGrow w) (bOrds w) (bSel w) (bOrders2 w) n fs (bRng w) = Ok c /\
       bTests w (CorpusTests (bCamel w) c) = Ok t /\ fread f' (dir ++ ["gen-marshallers_test.go"]) = Some t /\
       bFuzz w (Fuzzers (bCamel w) c) = Ok z /\ fread f' (dir ++ ["gen-fuzz.go"]) = Some z /\
       (forall u d k, In u c -> In (d, k) (svectors u) -> noCollision (bNamer w) (dataOf c) -> fread f' (corpusDir dir (stype u) (bNamer w d)) = Some d) /\
       forall nm h d, fread f' (corpusDir dir nm h) = Some d -> fread f (corpusDir dir nm h) = Some d \/
         exists u k, In u c /\ stype u = nm /\ In (d, k) (svectors u) /\ h = bNamer w d).
Proof. exact build_ok. Qed.
Print Assumptions C55_outputs.

(** C56, for sources of the class of C31 and files shorter than [lim]: the
    parser that a build writes accepts the corpus files that it writes for
    structs without contexts. *)
Theorem C56_corpus_accepted_partial : forall w m n dir names f f', build w m n dir names f = (Ok tt, f') ->
  (forall k, goodOrders (bOrds w k)) -> (forall k vs, exists rest, Permutation (bSel w k vs ++ rest) vs) -> all_valid (bOrders2 w) ->
  forall fs, Forall2 (readAs (inputs w f)) names fs ->
  forall r p, package (bCamel w) (bOrders1 w) fs r p ->
  forall gr sg, classFiles (bCamel w) r gr sg fs = true -> forall lim, lensFiles lim fs = true -> lim <= maxData -> ptrFiles fs = true -> roomyFiles fs r ->
  (exists b, bRender w p = Ok b /\ fread f' (dir ++ ["gen-marshallers.go"]) = Some b) /\
  forall nm h d, fread f' (corpusDir dir nm h) = Some d -> fread f (corpusDir dir nm h) <> Some d -> blen d < lim ->
  exists s, defines fs s /\ sname s = nm /\ (scontexts s = [] -> accepts (bCamel w) p s d).
Proof.
  intros w m n dir names f f' B GO SE V fs R r p PK gr sg CL lim LF LM PT SO.
  destruct (build_ok w m n dir names f f' B) as (fs' & p' & b & R' & M & RE & RD & K).
  assert (fs' = fs).
  { apply files_ok in R, R'. pose proof (filesReturn_fun _ _ _ _ R R') as E. congruence. }
  subst fs'. assert (p' = p) by (pose proof (pk_generated _ _ _ _ _ PK); congruence). subst p'. split; [eauto|].
  intros nm h d Q NQ L. destruct K as [(_ & K)|(c & t & z & G & _ & _ & _ & _ & _ & K)].
  - exfalso. apply NQ. rewrite <- Q. symmetry. apply K. unfold corpusDir. intros E. apply app_inv_head in E. discriminate E.
  - destruct (K nm h d Q) as [X|(u & k & Iu & EU & Iv & _)]; [contradiction|].
    destruct (corpus_accepted _ _ _ _ _ PK gr sg CL lim LF LM PT SO _ _ _ _ _ _ GO SE _ V G u d k Iu Iv L) as (s & D & N & A). exists s. split; auto. split; auto. congruence.
Qed.
Print Assumptions C56_corpus_accepted_partial.
(** And the generated tests pass: [ParseX] returns no error on their inputs. *)
Theorem C56_tests_pass_partial : forall camel os fs r p, package camel os fs r p ->
  forall gr sg, classFiles camel r gr sg fs = true -> forall lim, lensFiles lim fs = true -> lim <= maxData -> ptrFiles fs = true -> roomyFiles fs r ->
  forall grow ords sel n rn c, (forall k, goodOrders (ords k)) -> (forall k vs, exists rest, Permutation (sel k vs ++ rest) vs) ->
  forall os', all_valid os' -> GenerateFiles grow ords sel os' n fs rn = Ok c ->
  forall e d, In e (CorpusTests camel c) -> In d (eCases e) -> blen d < lim ->
  exists s, defines fs s /\ eCallee e = cat ["Parse"; camel (sname s)] /\ (scontexts s = [] -> accepts camel p s d).
Proof. exact tests_accepted. Qed.
Print Assumptions C56_tests_pass_partial.
(** A disk with one source file. *)
Definition source : string := "struct elt { u16 k IN [3..9]; nulterm s; }".
Definition oneSource (text : string) : fsys :=
  mkFS (fun q => if path_eqb q ["src.trunnel"] then Some (map (fun c => Z.of_nat (nat_of_ascii c)) (list_ascii_of_string text)) else None) [] [] 0.
Definition worldX : surroundings :=
  mkSurroundings (fun _ => None) showX (fun _ => Ok [84]) (fun _ => Ok [70]) nameX camelX goGrow (fun _ => uoX) allOf osX osX rngX (fun s => [s]).
Example C53_case : fst (build worldX 2000 50 ["out"] [] (oneSource source)) = Err "missing trunnel filenames" /\
  fst (build worldX 2000 50 ["out"] ["none"] (oneSource source)) = Err "open" /\
  fst (build worldX 2000 50 ["out"] ["src.trunnel"] (oneSource "struct")) = Err "parse error" /\
  fst (build worldX 2000 50 ["out"] ["src.trunnel"] (oneSource source)) = Ok tt.
Proof. repeat split; vm_compute; reflexivity. Qed.

Lemma first_is : forall {A B} (x : A * B) a, fst x = a -> x = (a, snd x).
Proof. intros A B [y b] a H. cbn in *. now subst. Qed.

(** The build of the case above, and its outputs. *)
Definition built : outcome unit * fsys := build worldX 2000 50 ["out"] ["src.trunnel"] (oneSource source).
Definition elt : struct := mkStruct "elt" [] (Some [MField "k" (TInt 16 (Some [mkRange (ILit 3) (Some (ILit 9))])); MField "s" TNul]).
Definition eltFiles : list file := [mkFile [] [] [elt] []].
Definition eltName : string := "0x00x30x6c0x770x0".
Lemma elt_read : Forall2 (readAs (inputs worldX (oneSource source))) ["src.trunnel"] eltFiles.
Proof. apply (parseFiles_some 2000). vm_compute. reflexivity. Qed.
Example C54_case : map fst (flog (snd built)) =
  [["out"; "gen-marshallers.go"]; ["out"; "testdata"; "fuzz"; "elt"; "corpus"; eltName]; ["out"; "gen-marshallers_test.go"]; ["out"; "gen-fuzz.go"]].
Proof. vm_compute. reflexivity. Qed.
Example C55_case : built = (Ok tt, snd built) /\ fread (snd built) ["out"; "gen-marshallers.go"] = Some [80] /\
  fread (snd built) ["out"; "gen-marshallers_test.go"] = Some [84] /\
  fread (snd built) (corpusDir ["out"] "elt" eltName) = Some [0; 3; 108; 119; 0] /\
  fread (snd built) ["src.trunnel"] = fread (oneSource source) ["src.trunnel"].
Proof. split; [apply first_is; vm_compute; reflexivity|]. repeat split; vm_compute; reflexivity. Qed.
Example C56_case : built = (Ok tt, snd built) /\ (forall k, goodOrders (bOrds worldX k)) /\
  (forall k vs, exists rest, Permutation (bSel worldX k vs ++ rest) vs) /\ all_valid (bOrders2 worldX) /\
  Forall2 (readAs (inputs worldX (oneSource source))) ["src.trunnel"] eltFiles /\
  package camelX osX eltFiles (theRes eltFiles) (theProg eltFiles) /\
  classFiles camelX (theRes eltFiles) noneGreedy eltSingle eltFiles = true /\ lensFiles maxData eltFiles = true /\ ptrFiles eltFiles = true /\ solidFiles eltFiles (theRes eltFiles) /\
  fread (snd built) (corpusDir ["out"] "elt" eltName) = Some [0; 3; 108; 119; 0] /\
  fread (oneSource source) (corpusDir ["out"] "elt" eltName) = None /\
  map (fun e => (eCallee e, eCases e)) (CorpusTests camelX (corpusOf goGrow eltFiles)) = [("ParseElt", [[0; 3; 108; 119; 0]])].
Proof.
  assert (P : package camelX osX eltFiles (theRes eltFiles) (theProg eltFiles)) by (apply package_of; vm_compute; reflexivity).
  split; [apply C55_case|]. split; [intros; exact uoX_good|]. split; [intros k vs; exists []; cbn; rewrite app_nil_r; apply Permutation_refl|].
  split; [apply (pk_orders _ _ _ _ _ P)|]. split; [exact elt_read|]. split; [exact P|]. split; [vm_compute; reflexivity|]. split; [reflexivity|]. split; [reflexivity|]. split.
  - intros s (_ & f & [<-|[]] & I) nm t J. cbn in I. destruct I as [<-|[]]. cases J; cbn; auto.
  - repeat split; vm_compute; reflexivity.
Qed.

(** C56 is false in general: a build that succeeds, for a source of which the
    generated test fails. *)
Definition bad : string := "struct pre { u8 n IN [200..201]; u8 x[n]; }".
Theorem C56_corpus_accepted_refuted : exists f', build worldX 2000 50 ["out"] ["src.trunnel"] (oneSource bad) = (Ok tt, f') /\
  Forall2 (readAs (inputs worldX (oneSource bad))) ["src.trunnel"] preFiles /\
  package camelX osX preFiles (theRes preFiles) (theProg preFiles) /\ defines preFiles pre /\ scontexts pre = [] /\
  fread f' (corpusDir ["out"] "pre" "0x10xa7") = Some [1; 167] /\
  map (fun e => (eCallee e, eCases e)) (CorpusTests camelX (corpusOf goGrow preFiles)) = [("ParsePre", [[1; 167]])] /\
  runNew camelX (theProg preFiles) 50 pre [1; 167] [] = SRet VNil (VErr "integer constraint violated").
Proof.
  exists (snd (build worldX 2000 50 ["out"] ["src.trunnel"] (oneSource bad))).
  split; [apply first_is; vm_compute; reflexivity|].
  split; [apply (parseFiles_some 2000); vm_compute; reflexivity|]. split; [apply pre_bad|]. split; [apply pre_bad|]. split; [reflexivity|].
  repeat split; vm_compute; reflexivity.
Qed.
Print Assumptions C56_corpus_accepted_refuted.

(** C58: when no file operation fails and printing succeeds, the outcome of a
    build is that of the two generators. *)
Theorem C58_outcome : forall w dir names f fs, smooth w -> names <> [] -> Forall2 (readAs (inputs w f)) names fs ->
  exists m0, forall m n, (m0 <= m)%nat ->
    let vectors := GenerateFiles (bGrow w) (bOrds w) (bSel w) (bOrders2 w) n fs (bRng w) in
    fst (build w m n dir names f) =
      (_ <- Marshallers (bCamel w) (bOrders1 w) fs ;; if notImplemented vectors then Ok tt else _ <- vectors ;; Ok tt)%outcome.
Proof. exact build_outcome. Qed.
Print Assumptions C58_outcome.

(** Sources of the classes of C31, C35 and C57 are built, and the tests and the
    corpus files that are written go with the parser that is written. *)
Theorem C58_built : forall w dir names f fs, smooth w -> names <> [] -> Forall2 (readAs (inputs w f)) names fs ->
  forall r p, package (bCamel w) (bOrders2 w) fs r p -> all_valid (bOrders1 w) ->
  (forall k, goodOrders (bOrds w k)) -> (forall k vs, exists rest, Permutation (bSel w k vs ++ rest) vs) ->
  forall rank q, finFiles r rank fs -> sucFiles r q fs -> zeroAgain (draws (bRng w)) ->
  forall gr sg, classFiles (bCamel w) r gr sg fs = true -> forall lim, lensFiles lim fs = true -> lim <= maxData -> ptrFiles fs = true -> roomyFiles fs r ->
  exists m0 n0 f' b c t z, (forall m n, (m0 <= m)%nat -> (n0 <= n)%nat -> build w m n dir names f = (Ok tt, f')) /\
    bRender w p = Ok b /\ fread f' (dir ++ ["gen-marshallers.go"]) = Some b /\
    bTests w (CorpusTests (bCamel w) c) = Ok t /\ fread f' (dir ++ ["gen-marshallers_test.go"]) = Some t /\
    bFuzz w (Fuzzers (bCamel w) c) = Ok z /\ fread f' (dir ++ ["gen-fuzz.go"]) = Some z /\
    (forall e d, In e (CorpusTests (bCamel w) c) -> In d (eCases e) -> blen d < lim ->
       exists s, defines fs s /\ eCallee e = cat ["Parse"; bCamel w (sname s)] /\ (scontexts s = [] -> accepts (bCamel w) p s d)) /\
    forall nm h d, fread f' (corpusDir dir nm h) = Some d -> fread f (corpusDir dir nm h) <> Some d -> blen d < lim ->
      exists s, defines fs s /\ sname s = nm /\ (scontexts s = [] -> accepts (bCamel w) p s d).
Proof. exact BuildMore.built. Qed.
Print Assumptions C58_built.

(** The parser that a successful build writes accepts the encodings of what the
    sources declare and nothing else. *)
Theorem C58_parser : forall w m n dir names f f', build w m n dir names f = (Ok tt, f') ->
  forall fs, Forall2 (readAs (inputs w f)) names fs -> forall r p, package (bCamel w) (bOrders1 w) fs r p ->
  (exists b, bRender w p = Ok b /\ fread f' (dir ++ ["gen-marshallers.go"]) = Some b) /\
  forall s fs0 data args, validCall (bCamel w) fs r s fs0 data args -> ptrFiles fs = true -> narrowFiles fs r ->
  forall rank, progress fs r rank -> (forall s', defines fs s' -> forallb totalM (members_of s') = true) -> blen data <= maxData ->
  (exists x rest fs1, data = x ++ rest /\ encStruct (bCamel w) (Constant r) (Struct r) False (contextsOf s args) s fs0 x rest fs1 /\
     parses (bCamel w) p s fs0 data args fs1 rest) \/
  ((forall x rest fs1, data = x ++ rest -> ~ encStruct (bCamel w) (Constant r) (Struct r) False (contextsOf s args) s fs0 x rest fs1) /\
   exists e, fails (bCamel w) p s fs0 data args e).
Proof.
  intros w m n dir names f f' B fs R r p PK. split.
  - destruct (build_ok w m n dir names f f' B) as (fs' & p' & b & R' & M & RE & RD & _).
    assert (fs' = fs) by (apply files_ok in R, R'; pose proof (filesReturn_fun _ _ _ _ R R'); congruence).
    subst fs'. assert (p' = p) by (pose proof (pk_generated _ _ _ _ _ PK); congruence). subst p'. eauto.
  - intros s fs0 data args VC PT NA rank PR TT L. exact (decides _ _ _ _ _ PK s fs0 data args VC PT NA rank PR L False (or_intror TT)).
Qed.
Print Assumptions C58_parser.

(** The source of the cases above meets all conditions, with random numbers that
    come back to zero; [calm] returns zeros only. *)
Definition calm : surroundings :=
  mkSurroundings (fun _ => None) showX (fun _ => Ok [84]) (fun _ => Ok [70]) nameX camelX goGrow (fun _ => uoX) allOf osX osX (mkRng (fun _ => 0) 0) (fun s => [s]).
Example C58_case : smooth calm /\ Forall2 (readAs (inputs calm (oneSource source))) ["src.trunnel"] eltFiles /\
  finFiles (theRes eltFiles) (fun _ => 0%nat) eltFiles /\ sucFiles (theRes eltFiles) eltSingle eltFiles /\
  zeroAgain (draws (bRng calm)) /\ narrowFiles eltFiles (theRes eltFiles) /\ progress eltFiles (theRes eltFiles) (fun _ => 0%nat) /\
  (forall s', defines eltFiles s' -> forallb totalM (members_of s') = true) /\
  build calm 2000 50 ["out"] ["src.trunnel"] (oneSource source) = (Ok tt, snd (build calm 2000 50 ["out"] ["src.trunnel"] (oneSource source))).
Proof.
  assert (D : forall s, defines eltFiles s -> s = elt) by (intros s (_ & f & [<-|[]] & [<-|[]]); reflexivity).
  split; [constructor; intros; (reflexivity || (eexists; reflexivity))|].
  split; [apply (parseFiles_some 2000); vm_compute; reflexivity|].
  split; [|split; [|split; [|split; [|split; [|split]]]]].
  - intros f s [<-|[]] [<-|[]] m I. destruct I as [<-|[<-|[]]]; cbn; auto.
    split; [discriminate|]. constructor; [|constructor]. exists 3, 9. cbn. unfold two63. intuition lia.
  - intros f s [<-|[]] [<-|[]] m I. destruct I as [<-|[<-|[]]]; cbn; auto. split.
    + constructor; [|constructor]. exists 3, 9. cbn. unfold two63. intuition lia.
    + intros (l1 & x & l2 & y & l3 & ? & ? & ? & ? & ? & E & _). destruct l1 as [|? [|? ?]]; inversion E. destruct l2; discriminate.
  - intros k. exists 0%nat. reflexivity.
  - intros s I f J. apply D in I as ->. cbn in J. repeat (destruct J as [<-|J]; [|]); try contradiction; split; intros E; try discriminate E; try (exfalso; apply E; reflexivity).
  - intros s I. apply D in I as ->. split.
    + intros nm t J. cases J; exact Logic.I.
    + apply G_field; [exact Logic.I|]. left. constructor. reflexivity.
  - intros s I. apply D in I as ->. reflexivity.
  - apply first_is. vm_compute. reflexivity.
Qed.
