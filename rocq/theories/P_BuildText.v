(** Property C88: from the bytes of sources to the bytes of Go files.

    [buildText w process raw m n pkg dir names f]: [trunnel build -p pkg -d dir names...]
    on the disk [f], over the printed texts (BuildTextModel.v).  [process] is
    imports.Process; [raw] tells which empty data are nil.  [readAs d name f]: the file
    [name] has a content that denotes [f] in the grammar of SyntaxSpec.v.  [readGo],
    [readTests], [readFuzzers]: what a Go compiler reads in a text (C86, C87). *)
From Coq Require Import ZArith String Ascii List Bool Lia Permutation.
From Verif Require Import PegModel PegGrammar PegTop SyntaxSpec PegExact.
From Verif Require Import Base Ast IntervalsModel InspectModel InspectSpec InspectProofs GoLang GenModel GenCheck GenPrint GenSimBody WireSpec WireProofs WireComplete
  PackageSpec PackageProofs PackageFacts PackageMore TvModel TvConstraints TvFacts TvClass TvGood TvAccept PkgModel PkgSpec PkgProofs PkgFacts
  GenExamples GenWitness TvWitness P_Package TvFinish TvSucceed GenTerm BuildModel BuildProofs BuildMore P_Build P_Harness HarnessModel
  GoTypes CompileCheck GoText TextModel TextLex TextSame TextOnce TextProg GoTestText TestTextModel TestTextProofs P_Text P_TestText BuildTextModel ResDet Moved.
Import ListNotations.
Open Scope string_scope.
Open Scope list_scope.
Open Scope Z_scope.

(** What is assumed of imports.Process where it returns a text: the text is read as before. *)
Record keepsGo (process : string -> outcome string) : Prop := mkKeepsGo {
  kg_go : forall t t' n x, process t = Ok t' -> readGo n t = Some x -> exists n', readGo n' t' = Some x;
  kg_tests : forall t t' n x, process t = Ok t' -> readTests n t = Some x -> exists n', readTests n' t' = Some x;
  kg_fuzz : forall t t' n x, process t = Ok t' -> readFuzzers n t = Some x -> exists n', readFuzzers n' t' = Some x;
  kg_tags : forall t t', process t = Ok t' -> constraintsOf t' = constraintsOf t }.
(** And where it does not: it refuses no Go text. *)
Record takesGo (process : string -> outcome string) : Prop := mkTakesGo {
  tg_go : forall t n x, readGo n t = Some x -> exists t', process t = Ok t';
  tg_tests : forall t n x, readTests n t = Some x -> exists t', process t = Ok t';
  tg_fuzz : forall t n x, readFuzzers n t = Some x -> exists t', process t = Ok t' }.

Lemma text_bytes : forall s, textIn (bytesIn s) = s.
Proof.
  intros s. unfold textIn, bytesIn, sourceOf. rewrite map_map. rewrite (map_ext _ (fun c => c)); [rewrite map_id; apply string_of_list_ascii_of_string|].
  intros c. rewrite Nat2Z.id. apply ascii_nat_embedding.
Qed.

(** The same build with the texts of the given files put in for printing. *)
Definition printing (w : surroundings) (process : string -> outcome string) (raw : corpus -> list rawSuite) (pkg : string) (n : nat) (fs : list file) : surroundings :=
  let vectors := GenerateFiles (bGrow w) (bOrds w) (bSel w) (bOrders2 w) n fs (bRng w) in
  mkSurroundings (bFails w) (fun _ => imported process (MarshallersText (bCamel w) pkg (bOrders1 w) fs))
    (fun _ => imported process (c <- vectors ;; Ok (TestsText (bCamel w) pkg (raw c))))
    (fun _ => imported process (c <- vectors ;; Ok (FuzzText (bCamel w) pkg (raw c))))
    (bNamer w) (bCamel w) (bGrow w) (bOrds w) (bSel w) (bOrders1 w) (bOrders2 w) (bRng w) (bLocate w).
Lemma build_text_is : forall w process raw m n pkg dir names f fs p,
  (forall x, parseFiles m (inputs w f) names = Some (Ok x) -> x = fs) -> Marshallers (bCamel w) (bOrders1 w) fs = Ok p ->
  buildText w process raw m n pkg dir names f = build (printing w process raw pkg n fs) m n dir names f.
Proof.
  intros w process raw m n pkg dir names f fs p H M. unfold buildText, build. destruct names as [|nm names]; [reflexivity|].
  change (inputs (printing w process raw pkg n fs) f) with (inputs w f).
  destruct (parseFiles m (inputs w f) (nm :: names)) as [[x|e|e|]|] eqn:P; try reflexivity. cbn [given]. rewrite (H x eq_refl). clear P H x.
  unfold PackageText, Package, PackageWith. cbn [printing bFails bRender bTests bFuzz bNamer bCamel bGrow bOrds bSel bOrders1 bOrders2 bRng]. rewrite M. cbn [bind].
  set (V := GenerateFiles _ _ _ _ _ _ _). destruct (imported process (MarshallersText (bCamel w) pkg (bOrders1 w) fs)) as [b|e|e|]; try reflexivity. cbn [given].
  destruct (notImplemented V); [reflexivity|]. destruct V as [c|e|e|]; reflexivity.
Qed.

Lemma tests_up : forall n m s x, (n <= m)%nat -> readTests n s = Some x -> readTests m s = Some x.
Proof. intros n m s x L H. unfold readTests in *. destruct (pFile n (tokens s)) as [y|] eqn:E; [|discriminate]. now rewrite (file_up n m s L y E). Qed.
Lemma fuzz_up : forall n m s x, (n <= m)%nat -> readFuzzers n s = Some x -> readFuzzers m s = Some x.
Proof. intros n m s x L H. unfold readFuzzers in *. destruct (pFile n (tokens s)) as [y|] eqn:E; [|discriminate]. now rewrite (file_up n m s L y E). Qed.
Lemma read_is : forall w f m names fs, Forall2 (readAs (inputs w f)) names fs -> forall x, parseFiles m (inputs w f) names = Some (Ok x) -> x = fs.
Proof.
  intros w f m names fs R x P. apply parseFiles_some in P. apply files_ok in R, P. pose proof (filesReturn_fun _ _ _ _ R P) as E. congruence.
Qed.

(** The disk after a success, in terms of the texts. *)
Lemma text_files : forall w process raw m n pkg dir names f f', buildText w process raw m n pkg dir names f = (Ok tt, f') ->
  forall fs, Forall2 (readAs (inputs w f)) names fs -> forall r p, package (bCamel w) (bOrders1 w) fs r p ->
  (exists t t', MarshallersText (bCamel w) pkg (bOrders1 w) fs = Ok t /\ process t = Ok t' /\ fread f' (dir ++ ["gen-marshallers.go"]) = Some (bytesIn t')) /\
  ((GenerateFiles (bGrow w) (bOrds w) (bSel w) (bOrders2 w) n fs (bRng w) = Err "not implemented" /\
    forall q, q <> dir ++ ["gen-marshallers.go"] -> fread f' q = fread f q) \/
   exists c t z, GenerateFiles (bGrow w) (bOrds w) (bSel w) (bOrders2 w) n fs (bRng w) = Ok c /\
     process (TestsText (bCamel w) pkg (raw c)) = Ok t /\ fread f' (dir ++ ["gen-marshallers_test.go"]) = Some (bytesIn t) /\
     process (FuzzText (bCamel w) pkg (raw c)) = Ok z /\ fread f' (dir ++ ["gen-fuzz.go"]) = Some (bytesIn z)).
Proof.
  intros w process raw m n pkg dir names f f' B fs R r p PK.
  rewrite (build_text_is w process raw m n pkg dir names f fs p (read_is w f m names fs R) (pk_generated _ _ _ _ _ PK)) in B.
  destruct (build_ok _ _ _ _ _ _ _ B) as (fs' & p' & b & R' & M & RE & RD & K).
  assert (fs' = fs) by (apply files_ok in R, R'; pose proof (filesReturn_fun _ _ _ _ R R'); congruence). subst fs'.
  cbn [printing bFails bRender bTests bFuzz bNamer bCamel bGrow bOrds bSel bOrders1 bOrders2 bRng] in *. split.
  - unfold imported in RE. destruct (MarshallersText _ _ _ _) as [t|e|e|]; try discriminate. cbn [bind] in RE. destruct (process t) as [t'|e|e|] eqn:P; try discriminate. cbn [bind] in RE. injection RE as <-. exists t, t'. auto.
  - destruct K as [K|(c & t & z & G & ET & RT & EZ & RZ & _)]; [left; exact K|]. right. rewrite G in ET, EZ. unfold imported in ET, EZ. cbn [bind] in ET, EZ.
    destruct (process (TestsText _ _ _)) as [t'|e|e|] eqn:P1; try discriminate. destruct (process (FuzzText _ _ _)) as [z'|e|e|] eqn:P2; try discriminate. cbn [bind] in ET, EZ. injection ET as <-. injection EZ as <-.
    exists c, t', z'. auto.
Qed.

(** After a success the file gen-marshallers.go is a Go file of the package.  It compiles if the
    integers fit, and its functions accept the encodings of what the sources declare and nothing else. *)
Theorem C88_parser : forall w process raw m n pkg dir names f f', keepsGo process -> goName pkg = true ->
  buildText w process raw m n pkg dir names f = (Ok tt, f') ->
  forall fs, Forall2 (readAs (inputs w f)) names fs ->
  forall r p, package (bCamel w) (bOrders1 w) fs r p -> namesFiles (bCamel w) fs = true ->
  exists b k ds, fread f' (dir ++ ["gen-marshallers.go"]) = Some b /\ readGo k (textIn b) = Some (pkg, ds) /\
    (compiles (bCamel w) (programOf ds) = true <-> fitsFiles r fs = true) /\
    forall s fs0 data args, validCall (bCamel w) fs r s fs0 data args -> ptrFiles fs = true -> narrowFiles fs r ->
    forall rank, progress fs r rank -> (forall s', defines fs s' -> forallb totalM (members_of s') = true) -> blen data <= maxData ->
    (exists x rest fs1, data = x ++ rest /\ encStruct (bCamel w) (Constant r) (Struct r) False (contextsOf s args) s fs0 x rest fs1 /\
       parses (bCamel w) (programOf ds) s fs0 data args fs1 rest) \/
    ((forall x rest fs1, data = x ++ rest -> ~ encStruct (bCamel w) (Constant r) (Struct r) False (contextsOf s args) s fs0 x rest fs1) /\
     exists e, fails (bCamel w) (programOf ds) s fs0 data args e).
Proof.
  intros w process raw m n pkg dir names f f' KG GP B fs R r p PK NM.
  destruct (text_files w process raw m n pkg dir names f f' B fs R r p PK) as ((t & t' & MT & P & RD) & _).
  destruct (C86_text_is_go _ _ _ _ _ pkg PK NM GP) as (text & ds & k & MT' & RG & _). rewrite MT in MT'. injection MT' as <-. specialize (RG k (Nat.le_refl _)).
  destruct (kg_go _ KG _ _ _ _ P RG) as (k' & RG'). exists (bytesIn t'), k', ds. rewrite text_bytes. split; auto. split; auto.
  split; [exact (proj1 (proj2 (C86_text_runs _ _ _ _ _ pkg PK NM GP t k pkg ds MT RG)))|].
  exact (C86_text_accepts_exactly _ _ _ _ _ pkg PK NM GP t k ds MT RG).
Qed.
Print Assumptions C88_parser.

(** Then either vectors are not implemented for the sources, and nothing else was written, or the
    two other files are Go files of the package too, the second for the tag gofuzz, and their
    functions are those that the vectors ask for.  For the sources of C31 the tests pass. *)
Theorem C88_tests : forall w process raw m n pkg dir names f f', keepsGo process -> (forall c, plain (raw c) = c) -> goName pkg = true ->
  buildText w process raw m n pkg dir names f = (Ok tt, f') ->
  forall fs, Forall2 (readAs (inputs w f)) names fs ->
  forall r p, package (bCamel w) (bOrders1 w) fs r p -> namesFiles (bCamel w) fs = true ->
  (GenerateFiles (bGrow w) (bOrds w) (bSel w) (bOrders2 w) n fs (bRng w) = Err "not implemented" /\
   forall q, q <> dir ++ ["gen-marshallers.go"] -> fread f' q = fread f q) \/
  exists c t z k, GenerateFiles (bGrow w) (bOrds w) (bSel w) (bOrders2 w) n fs (bRng w) = Ok (plain c) /\
    fread f' (dir ++ ["gen-marshallers_test.go"]) = Some t /\ readTests k (textIn t) = Some (pkg, wantTests (bCamel w) c) /\ constraintsOf (textIn t) = [] /\
    fread f' (dir ++ ["gen-fuzz.go"]) = Some z /\ readFuzzers k (textIn z) = Some (pkg, wantFuzz (bCamel w) c) /\ constraintsOf (textIn z) = ["gofuzz"] /\
    forall gr sg, classFiles (bCamel w) r gr sg fs = true -> forall lim, lensFiles lim fs = true -> lim <= maxData -> ptrFiles fs = true -> roomyFiles fs r ->
    (forall j, goodOrders (bOrds w j)) -> (forall j vs, exists rest, Permutation (bSel w j vs ++ rest) vs) -> all_valid (bOrders2 w) ->
    forall b i ds, fread f' (dir ++ ["gen-marshallers.go"]) = Some b -> readGo i (textIn b) = Some (pkg, ds) ->
    forall h, In h (wantTests (bCamel w) c) -> (forall d, In d (hTable h) -> blen d < lim) ->
    exists s, defines fs s /\ hName h = ("Test" ++ bCamel w (sname s) ++ "Corpus")%string /\
      (scontexts s = [] -> comesTo (fun m => runTest (programOf ds) m (emittedOf h)) (Ok tt)).
Proof.
  intros w process raw m n pkg dir names f f' KG RW GP B fs R r p PK NM.
  destruct (text_files w process raw m n pkg dir names f f' B fs R r p PK) as ((t0 & t0' & MT & P0 & RD) & [K|(c & t & z & G & P1 & RT & P2 & RZ)]); [left; exact K|right].
  assert (G' : GenerateFiles (bGrow w) (bOrds w) (bSel w) (bOrders2 w) n fs (bRng w) = Ok (plain (raw c))) by (rewrite RW; exact G).
  pose proof (suites_good _ fs NM _ _ _ _ _ _ _ G') as GS.
  destruct (C87_tests_text (bCamel w) pkg (raw c) GP GS) as (k1 & T1). destruct (C87_fuzz_text (bCamel w) pkg (raw c) GP (fun s I => proj1 (GS s I))) as (k2 & T2).
  specialize (T1 k1 (Nat.le_refl _)). specialize (T2 k2 (Nat.le_refl _)).
  destruct (kg_tests _ KG _ _ _ _ P1 T1) as (j1 & U1). destruct (kg_fuzz _ KG _ _ _ _ P2 T2) as (j2 & U2).
  assert (V1 : readTests (Nat.max j1 j2) t = Some (pkg, wantTests (bCamel w) (raw c))) by (eapply tests_up; [|exact U1]; lia).
  assert (V2 : readFuzzers (Nat.max j1 j2) z = Some (pkg, wantFuzz (bCamel w) (raw c))) by (eapply fuzz_up; [|exact U2]; lia).
  exists (raw c), (bytesIn t), (bytesIn z), (Nat.max j1 j2). rewrite !text_bytes.
  split; [exact G'|]. split; auto. split; auto. split; [rewrite (kg_tags _ KG _ _ P1); apply C87_build|]. split; auto. split; auto. split; [rewrite (kg_tags _ KG _ _ P2); apply C87_build|].
  intros gr sg CL lim LF LM PT RO GO SE V b i ds RB RI h Ih LD. rewrite RD in RB. injection RB as <-. rewrite text_bytes in RI.
  destruct (C86_text_is_go _ _ _ _ _ pkg PK NM GP) as (text & ds' & k & MT' & RG & _). rewrite MT in MT'. injection MT' as <-. specialize (RG k (Nat.le_refl _)).
  destruct (kg_go _ KG _ _ _ _ P0 RG) as (k' & RG'). pose proof (C86_read_once _ _ _ _ _ RI RG') as E. injection E as ->.
  destruct (C87_tests_pass _ _ _ _ _ pkg PK NM GP gr sg CL lim LF LM PT RO _ _ _ _ _ _ GO SE _ V G' t0 k ds' MT RG _ _ T1 h Ih LD) as (s & D & E1 & _ & Q).
  exists s. auto.
Qed.
Print Assumptions C88_tests.

(** Sources of the classes of C31, C35 and C57 are built, if no file operation fails and
    imports.Process refuses no Go text. *)
Theorem C88_built : forall w process raw dir names f fs pkg, (forall k, bFails w k = None) -> takesGo process -> (forall c, plain (raw c) = c) -> goName pkg = true ->
  names <> [] -> Forall2 (readAs (inputs w f)) names fs -> namesFiles (bCamel w) fs = true ->
  forall r p, package (bCamel w) (bOrders2 w) fs r p -> all_valid (bOrders1 w) ->
  (forall k, goodOrders (bOrds w k)) -> (forall k vs, exists rest, Permutation (bSel w k vs ++ rest) vs) ->
  forall rank q, finFiles r rank fs -> sucFiles r q fs -> zeroAgain (draws (bRng w)) ->
  exists m0 n0 f', forall m n, (m0 <= m)%nat -> (n0 <= n)%nat -> buildText w process raw m n pkg dir names f = (Ok tt, f').
Proof.
  intros w process raw dir names f fs pkg NF TG RW GP NN RD NM r p PK V1 GO SE rank q FF FS ZA.
  destruct (corpus_made w fs r p PK GO SE rank q FF FS ZA) as (N & c & G).
  pose proof (resolver_same (bOrders2 w) (bOrders1 w) fs (pk_orders _ _ _ _ _ PK) V1) as RS. rewrite (pk_resolved _ _ _ _ _ PK) in RS.
  destruct (NewResolverFiles (bOrders1 w) fs) as [r1|e|e|] eqn:R1; try contradiction.
  assert (SD : sameDeclarations fs fs) by (constructor; apply Permutation_refl).
  destruct (sd_package _ _ _ _ _ _ _ _ V1 SD PK R1) as (p1 & PK1).
  destruct (C86_text_is_go _ _ _ _ _ pkg PK1 NM GP) as (text & ds & k & MT & RG & _). specialize (RG k (Nat.le_refl _)).
  assert (G' : GenerateFiles (bGrow w) (bOrds w) (bSel w) (bOrders2 w) N fs (bRng w) = Ok (plain (raw c))) by (rewrite RW; apply G; lia).
  pose proof (suites_good _ fs NM _ _ _ _ _ _ _ G') as GS.
  destruct (C87_tests_text (bCamel w) pkg (raw c) GP GS) as (k1 & T1). destruct (C87_fuzz_text (bCamel w) pkg (raw c) GP (fun s I => proj1 (GS s I))) as (k2 & T2).
  destruct (tg_go _ TG _ _ _ RG) as (t' & P0). destruct (tg_tests _ TG _ _ _ (T1 k1 (Nat.le_refl _))) as (u' & P1). destruct (tg_fuzz _ TG _ _ _ (T2 k2 (Nat.le_refl _))) as (z' & P2).
  apply files_ok in RD as (m0 & RD). exists m0, N.
  assert (E : exists f', PackageText w process raw pkg dir N fs f = (Ok tt, f')).
  { unfold PackageText, imported. rewrite MT. cbn [bind]. rewrite P0. cbn [bind given].
    destruct (write_smooth _ NF (dir ++ ["gen-marshallers.go"]) (bytesIn t') f) as (f1 & ->). cbn [andThen fst snd]. rewrite (G N) by lia. cbn [notImplemented given].
    destruct (corpus_smooth _ NF (bNamer w) (dir ++ ["testdata"; "fuzz"]) c f1) as (f2 & ->). cbn [andThen fst snd bind]. rewrite P1. cbn [bind given].
    destruct (write_smooth _ NF (dir ++ ["gen-marshallers_test.go"]) (bytesIn u') f2) as (f3 & ->). cbn [andThen fst snd]. rewrite P2. cbn [bind given].
    apply write_smooth. exact NF. }
  destruct E as (f' & E). exists f'. intros m n Lm Ln. unfold buildText. destruct names as [|nm names]; [congruence|]. rewrite (RD m Lm). cbn [given].
  rewrite <- E. unfold PackageText. now rewrite (G n Ln), (G N) by lia.
Qed.
Print Assumptions C88_built.

(** Without [--pkg] the package name is empty.  As imports.Process takes files with a package
    clause only, every such build fails, and leaves everything as it was. *)
Definition wantsClause (process : string -> outcome string) : Prop :=
  forall t t', process t = Ok t' -> exists x ts, tokens t = tkKey "package" :: tkId x :: ts.
Definition typeFirst (s : string) : Prop := s = ""%string \/ exists s', s = ("type " ++ s')%string.
Lemma typeFirst_cat : forall a b, typeFirst a -> typeFirst b -> typeFirst (a ++ b)%string.
Proof. intros a b [->|(a' & ->)] B; [exact B|]. right. exists (a' ++ b)%string. now rewrite <- append_assoc. Qed.
Lemma typeFirst_join : forall l, Forall typeFirst l -> typeFirst (join l).
Proof. induction 1 as [|a l H _ IH]; cbn [join]; [now left|now apply typeFirst_cat]. Qed.
Lemma mapM_first : forall A (g : A -> outcome string) l ss, (forall a s, g a = Ok s -> typeFirst s) -> mapM g l = Ok ss -> Forall typeFirst ss.
Proof.
  intros A g l. induction l as [|a l IH]; intros ss H M; cbn [mapM] in M; [injection M as <-; constructor|].
  destruct (g a) as [s|e|e|] eqn:E; try discriminate. cbn [bind] in M. destruct (mapM g l) as [ss'|e|e|]; try discriminate. cbn [bind] in M. injection M as <-. constructor; eauto.
Qed.
Lemma type_first : forall n fields, typeFirst (typeDeclS n fields).
Proof. intros n fields. right. unfold typeDeclS. cbn [join]. eexists. reflexivity. Qed.
Lemma file_first : forall camel r fl s, fileS camel r fl = Ok s -> typeFirst s.
Proof.
  intros camel r fl s H. unfold fileS in H. destruct (mapM (contextS camel r) _) as [cs|e|e|] eqn:C; try discriminate. cbn [bind] in H.
  destruct (mapM (structureS camel r) _) as [ss|e|e|] eqn:S; try discriminate. cbn [bind] in H. injection H as <-. apply (typeFirst_join [join cs; join ss]). constructor; [|constructor; [|constructor]]; apply typeFirst_join.
  - refine (mapM_first _ _ _ _ _ C). intros a s' X. unfold contextS in X. destruct (mapM _ (cmembers a)) as [l|e|e|]; try discriminate X. cbn [bind] in X. injection X as <-. apply type_first.
  - refine (mapM_first _ _ _ _ _ S). intros a s0. unfold structureS. destruct (Extern a); [intros X; injection X as <-; now left|].
    destruct (receiverName _) as [rv|e|e|]; try discriminate. cbn [bind]. destruct (structDeclS _ _ _) as [d|e|e|] eqn:D; try discriminate. cbn [bind]. destruct (parseFuncS _ _ _ _) as [fn|e|e|]; try discriminate. cbn [bind].
    intros X. injection X as <-. unfold structDeclS in D. destruct (mapM _ (members_of a)) as [l|e|e|]; try discriminate D. cbn [bind] in D. injection D as <-. cbn [join]. destruct (type_first (camel (sname a)) (join l)) as [Y|(s' & ->)]; [|right; eexists; (apply append_assoc || (symmetry; apply append_assoc))].
    unfold typeDeclS in Y. discriminate Y.
Qed.
Theorem C88_no_package_name : forall w process raw m n dir names f, wantsClause process ->
  exists x, (forall u, x <> Ok u) /\ buildText w process raw m n "" dir names f = (x, f).
Proof.
  intros w process raw m n dir names f WC. unfold buildText. destruct names as [|nm names]; [eexists; split; [|reflexivity]; discriminate|].
  destruct (parseFiles m (inputs w f) (nm :: names)) as [[fs|e|e|]|]; cbn [given]; try (eexists; split; [|reflexivity]; discriminate).
  unfold PackageText, imported. destruct (MarshallersText (bCamel w) "" (bOrders1 w) fs) as [t|e|e|] eqn:MT; cbn [bind given]; try (eexists; split; [|reflexivity]; discriminate).
  destruct (process t) as [t'|e|e|] eqn:P; cbn [bind given]; try (eexists; split; [|reflexivity]; discriminate). exfalso.
  destruct (WC _ _ P) as (x & ts & E). unfold MarshallersText in MT. destruct (NewResolverFiles _ _) as [r|e|e|]; try discriminate. cbn [bind] in MT.
  destruct (mapM (fileS (bCamel w) r) fs) as [ss|e|e|] eqn:M; try discriminate. cbn [bind] in MT.
  assert (T : t = join [markS; pkgS ""; join ss]) by congruence. clear MT. subst t.
  pose proof (typeFirst_join _ (mapM_first _ _ _ _ (file_first (bCamel w) r) M)) as F.
  replace (join [markS; pkgS ""; join ss]) with ((markS ++ pkgS "") ++ join ss)%string in E by (cbn [join]; now rewrite append_nil, append_assoc).
  destruct F as [F|(s' & F)]; rewrite F in E.
  - vm_compute in E. discriminate E.
  - rewrite <- (append_assoc (markS ++ pkgS "") "type " s') in E. unfold tokens in E. rewrite run_app in E.
    replace (run (sGap false) ((markS ++ pkgS "") ++ "type ")) with ([tkKey "package"; tkKey "type"], sGap false) in E by (vm_compute; reflexivity).
    unfold pre in E. cbn [fst snd app] in E. destruct (run (sGap false) s'). cbn [fst snd] in E. destruct (finish l0); discriminate E.
Qed.
Print Assumptions C88_no_package_name.

(** A stand-in for imports.Process that meets all that is assumed of it, and the source of C53 to
    C58 with it: texts are written, which are read as Go. *)
Definition careful (t : string) : outcome string :=
  match tokens t with
  | tkKey k :: tkId _ :: _ => if String.eqb k "package" then Ok t else Err "expected package"
  | _ => Err "expected package"
  end.
Lemma careful_same : forall t t', careful t = Ok t' -> t' = t.
Proof. intros t t' H. unfold careful in H. destruct (tokens t) as [|[] [|[] ?]]; try discriminate. destruct (String.eqb _ _); congruence. Qed.
Lemma careful_file : forall t n x, pFile n (tokens t) = Some x -> exists t', careful t = Ok t'.
Proof.
  intros t n x H. unfold careful, pFile in *. destruct (tokens t) as [|a ts]; [discriminate H|]. destruct a; cbn [isKey] in H; try discriminate H.
  match goal with |- context [String.eqb ?k "package"] => destruct (String.eqb k "package") end; try discriminate H. cbn [tl] in H. destruct ts as [|b ts]; [discriminate H|]. destruct b; cbn [name1] in H; try discriminate H; eauto.
Qed.
Lemma careful_keeps : keepsGo careful.
Proof. constructor; intros t t'; intros; assert (E : t' = t) by (apply careful_same; assumption); subst t'; eauto. Qed.
Lemma careful_takes : takesGo careful.
Proof.
  constructor; intros t n x H; [unfold readGo in H|unfold readTests in H|unfold readFuzzers in H]; destruct (pFile n (tokens t)) as [y|] eqn:E; try discriminate H; eapply careful_file; eauto.
Qed.
Lemma careful_wants : wantsClause careful.
Proof.
  intros t t' H. unfold careful in H. destruct (tokens t) as [|a [|b ts]]; try discriminate H; destruct a as [|k| | | |]; try discriminate H; destruct b; try discriminate H. destruct (String.eqb k "package") eqn:E; [|discriminate H]. apply String.eqb_eq in E as ->. eauto.
Qed.
Lemma plain_raw : forall c, plain (rawOf c) = c.
Proof.
  induction c as [|[nm vs] c IH]; [reflexivity|]. unfold plain, rawOf in *. cbn [map fst snd stype svectors]. rewrite IH. do 2 f_equal.
  induction vs as [|[d k] vs IHv]; [reflexivity|]. cbn [map fst snd plainData]. now rewrite IHv.
Qed.
Definition builtText : outcome unit * fsys := buildText calm careful rawOf 2000 50 "elt" ["out"] ["src.trunnel"] (oneSource source).
Definition textAt (name : string) : string := match fread (snd builtText) ["out"; name] with Some b => textIn b | None => "" end.
Example C88_case : keepsGo careful /\ takesGo careful /\ wantsClause careful /\ (forall c, plain (rawOf c) = c) /\ namesFiles camelX eltFiles = true /\
  package camelX osX eltFiles (theRes eltFiles) (theProg eltFiles) /\ fst builtText = Ok tt /\
  (exists ds, readGo 100 (textAt "gen-marshallers.go") = Some ("elt", ds) /\ map fst (funcsOf ds) = ["Elt"]) /\
  readTests 50 (textAt "gen-marshallers_test.go") = Some ("elt", [mkHarness "TestEltCorpus" [[0; 3; 97; 97; 0]] "ParseElt"]) /\
  readFuzzers 50 (textAt "gen-fuzz.go") = Some ("elt", [mkHarness "FuzzElt" [] "ParseElt"]) /\ constraintsOf (textAt "gen-fuzz.go") = ["gofuzz"] /\
  fst (buildText calm careful rawOf 2000 50 "" ["out"] ["src.trunnel"] (oneSource source)) = Err "expected package".
Proof.
  split; [exact careful_keeps|]. split; [exact careful_takes|]. split; [exact careful_wants|]. split; [exact plain_raw|]. split; [vm_compute; reflexivity|].
  split; [apply package_of; vm_compute; reflexivity|]. split; [vm_compute; reflexivity|]. split; [eexists; split; vm_compute; reflexivity|].
  split; [vm_compute; reflexivity|]. split; [vm_compute; reflexivity|]. split; vm_compute; reflexivity.
Qed.
