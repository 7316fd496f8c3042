(** Declarations on which test vector generation goes wrong. *)
From Coq Require Import ZArith String List Bool Lia ZifyBool.
From Verif Require Import Base Ast IntervalsModel IntervalsSpec RandomProofs InspectModel InspectSpec InspectProofs BranchProofs GoLang GenModel GenDecode GenCheck
  WireSpec WireProofs WireComplete GenTerm GenSafe WireFacts PackageSpec PackageProofs PackageFacts GenExamples GenWitness
  TvModel TvConstraints TvHeap TvFacts PkgModel.
Import ListNotations.
Open Scope string_scope.
Open Scope list_scope.
Open Scope Z_scope.

(** A capacity like the one Go's runtime gives to small byte slices: at least
    double, rounded up to the next size class. *)
Definition goGrow (old need : nat) : nat :=
  let c := if Nat.ltb (2 * old) need then need else (2 * old)%nat in
  if Nat.leb c 8 then 8%nat else if Nat.leb c 16 then 16%nat else c.
(** No spare room at all. *)
Definition tight (_ need : nat) : nat := need.
Definition uoX : uorders := mkUO (fun c => c) (fun _ m => m).
Lemma uoX_good : goodOrders uoX.
Proof. split; intros; apply Permutation.Permutation_refl. Qed.
Definition allOf (_ : nat) (vs : list vec) : list vec := vs.
Definition rngX : rng := mkRng (fun n => Z.of_nat n * 16807 mod 2147483647) 0.
Definition corpusOf (grow : nat -> nat -> nat) (fs : list file) : corpus :=
  match GenerateFiles grow (fun _ => uoX) allOf osX 50 fs rngX with Ok c => c | _ => [] end.

(** What is wrong with a vector: it is emitted into the generated tests, and the
    generated parser rejects it. *)
Definition badVector (grow : nat -> nat -> nat) (fs : list file) (s : struct) (v : vector) (e : string) : Prop :=
  package camelX osX fs (theRes fs) (theProg fs) /\ defines fs s /\ scontexts s = [] /\
  GenerateFiles grow (fun _ => uoX) allOf osX 50 fs rngX = Ok (corpusOf grow fs) /\
  (exists u, In u (corpusOf grow fs) /\ stype u = sname s /\ constrained (svectors u) = false /\ In v (svectors u)) /\
  fails camelX (theProg fs) s (blank camelX (Constant (theRes fs)) s) (fst v) [] e.

(** [struct elem { u8 t; union u[t] { 1: u8 a; 2: u8 b[3]; default: fail; }; }
    struct es { struct elem e[2]; }] *)
Definition elem := mkStruct "elem" [] (Some [u8 "t"; MUnion "u" (local "t") None
  [UCase (is 1) [u8 "a"]; UCase (is 2) [MField "b" (TFixed (TInt 8 None) (ILit 3))]; UCase None [MFail]]]).
Definition es := mkStruct "es" [] (Some [MField "e" (TFixed (TStruct "elem") (ILit 2))]).
Definition esFiles := one [elem; es].
(** A vector that a later [append] has overwritten. *)
Lemma es_bad : badVector goGrow esFiles es ([1; 90; 2; 23], []) "data too short".
Proof.
  assert (P : package camelX osX esFiles (theRes esFiles) (theProg esFiles)) by (apply package_of; vm_compute; reflexivity).
  split; auto. split; [apply one_defines; [right; now left|reflexivity]|]. split; [reflexivity|]. split; [vm_compute; reflexivity|]. split.
  - exists (mkSuite "es" [([1; 90; 2; 23], []); ([1; 90; 2; 23; 112; 201], []); ([2; 157; 246; 79; 2; 23], []); ([2; 157; 246; 79; 2; 23; 112; 201], [])]).
    split; [vm_compute; auto|]. split; [reflexivity|]. split; [reflexivity|]. now left.
  - apply (fails_dec camelX osX esFiles _ _ P).
    + apply fresh_call; auto; try (vm_compute; reflexivity). { right; now left. } { apply bytes_ok; vm_compute; reflexivity. }
    + exists 5%nat. vm_compute. reflexivity.
Qed.
(** Without spare room the vectors are the intended ones. *)
Lemma es_differ : corpusOf goGrow esFiles <> corpusOf tight esFiles.
Proof. vm_compute. discriminate. Qed.

(** [struct in { u8 a; }  struct out { u8 n; struct in i; u8 x[n]; }] *)
Definition inner := mkStruct "in" [] (Some [u8 "a"]).
Definition outer := mkStruct "out" [] (Some [u8 "n"; MField "i" (TStruct "in"); MField "x" (TVar (TInt 8 None) (Some (LRef (local "n"))))]).
Definition outFiles := one [inner; outer].
(** The length chosen for [x] is forgotten while [i] is generated. *)
Lemma out_bad : badVector tight outFiles outer ([45; 134; 223; 56; 145; 234; 67; 156; 245; 78], []) "data too short".
Proof.
  assert (P : package camelX osX outFiles (theRes outFiles) (theProg outFiles)) by (apply package_of; vm_compute; reflexivity).
  split; auto. split; [apply one_defines; [right; now left|reflexivity]|]. split; [reflexivity|]. split; [vm_compute; reflexivity|]. split.
  - exists (mkSuite "out" [([45; 134; 223; 56; 145; 234; 67; 156; 245; 78], [])]).
    split; [vm_compute; auto|]. split; [reflexivity|]. split; [reflexivity|]. now left.
  - apply (fails_dec camelX osX outFiles _ _ P).
    + apply fresh_call; auto; try (vm_compute; reflexivity). { right; now left. } { apply bytes_ok; vm_compute; reflexivity. }
    + exists 60%nat. vm_compute. reflexivity.
Qed.

(** [struct pre { u8 n IN [200..201]; u8 x[n]; }]: the constraint on [n] is ignored. *)
Definition pre := mkStruct "pre" [] (Some [MField "n" (TInt 8 (Some [mkRange (ILit 200) (Some (ILit 201))]));
  MField "x" (TVar (TInt 8 None) (Some (LRef (local "n"))))]).
Definition preFiles := one [pre].
Lemma pre_bad : badVector goGrow preFiles pre ([1; 167], []) "integer constraint violated".
Proof.
  assert (P : package camelX osX preFiles (theRes preFiles) (theProg preFiles)) by (apply package_of; vm_compute; reflexivity).
  split; auto. split; [apply one_defines; [now left|reflexivity]|]. split; [reflexivity|]. split; [vm_compute; reflexivity|]. split.
  - exists (mkSuite "pre" [([1; 167], [])]). split; [vm_compute; auto|]. split; [reflexivity|]. split; [reflexivity|]. now left.
  - apply (fails_dec camelX osX preFiles _ _ P).
    + apply fresh_call; auto; try (vm_compute; reflexivity). { now left. } { apply bytes_ok; vm_compute; reflexivity. }
    + exists 5%nat. vm_compute. reflexivity.
Qed.

(** The repository's own example gen/tests/unionbasic, with its constants written
    out: [struct date { u16 year; u8 month; u8 day; }
    struct basic { u8 tag IN [2..6]; union value[tag] { 2: struct date d; 3: u32 num;
    4: u8 eightbytes[8]; 6: nulterm string; }; }] *)
Definition date := mkStruct "date" [] (Some [MField "year" (TInt 16 None); u8 "month"; u8 "day"]).
Definition basic := mkStruct "basic" [] (Some [MField "tag" (TInt 8 (Some (map (fun z => mkRange (ILit z) None) [2; 3; 4; 5; 6])));
  MUnion "value" (local "tag") None [UCase (is 2) [MField "d" (TStruct "date")]; UCase (is 3) [MField "num" (TInt 32 None)];
    UCase (is 4) [MField "eightbytes" (TFixed (TInt 8 None) (ILit 8))]; UCase (is 6) [MField "string" TNul]]]).
Definition basicFiles := one [date; basic].
Definition rngB : rng := mkRng (fun n => Z.of_nat n * 6364136223846793005) 0.
(** The tag chosen for the first case is forgotten while [d] is generated: the date
    is preceded by the tag 6, which announces a string. *)
Lemma basic_bad : package camelX osX basicFiles (theRes basicFiles) (theProg basicFiles) /\ defines basicFiles basic /\ scontexts basic = [] /\
  (exists c u, GenerateFiles tight (fun _ => uoX) allOf osX 50 basicFiles rngB = Ok c /\ In u c /\ stype u = "basic" /\
    constrained (svectors u) = false /\ In ([6; 28; 73; 239; 194], []) (svectors u)) /\
  fails camelX (theProg basicFiles) basic (blank camelX (Constant (theRes basicFiles)) basic) [6; 28; 73; 239; 194] [] "could not parse nul-term string".
Proof.
  assert (P : package camelX osX basicFiles (theRes basicFiles) (theProg basicFiles)) by (apply package_of; vm_compute; reflexivity).
  split; auto. split; [apply one_defines; [right; now left|reflexivity]|]. split; [reflexivity|]. split.
  - eexists. exists (mkSuite "basic" [([6; 28; 73; 239; 194], []); ([3; 208; 253; 42; 87], []);
      ([4; 129; 84; 39; 250; 205; 160; 115; 70], []); ([6; 120; 97; 100; 103; 0], [])]).
    split; [vm_compute; reflexivity|]. split; [right; now left|]. split; [reflexivity|]. split; [reflexivity|]. now left.
  - apply (fails_dec camelX osX basicFiles _ _ P).
    + apply fresh_call; auto; try (vm_compute; reflexivity). { right; now left. } { apply bytes_ok; vm_compute; reflexivity. }
    + exists 10%nat. vm_compute. reflexivity.
Qed.

(** [struct full { u8 t; union u[t] { 0..255: u8 a; default: fail; }; }] *)
Definition fullS := mkStruct "full" [] (Some [u8 "t"; MUnion "u" (local "t") None
  [UCase (Some [mkRange (ILit 0) (Some (ILit 255))]) [u8 "a"]; UCase None [MFail]]]).
Definition fullFiles := one [fullS].
Lemma full_panics : package camelX osX fullFiles (theRes fullFiles) (theProg fullFiles) /\
  GenerateFiles goGrow (fun _ => uoX) allOf osX 50 fullFiles rngX = Panic "empty set".
Proof. split; [apply package_of; vm_compute; reflexivity|vm_compute; reflexivity]. Qed.

(** [struct node { struct node next; }]: generation never returns. *)
Section Node.
Variable grow : nat -> nat -> nat.
Variable ords : nat -> uorders.
Hypothesis Hords : forall n, goodOrders (ords n).
Variable sel : nat -> list vec -> list vec.
Lemma node_members : forall n v vs g, wfg g ->
  gmembers grow ords sel (theRes nodeFiles) n node [MField "next" (TStruct "node")] (v :: vs) g = OutOfFuel.
Proof.
  induction n as [|n IH]; intros v vs g W; [reflexivity|]. cbn [gmembers membersLoop bind extend gmember field].
  change (StructNonExtern (theRes nodeFiles) "node") with (Ok node). cbn [bind]. unfold structureWith.
  assert (W1 : wfg (setCur (vcons v) g)) by exact W.
  destruct (cloneGlobalMap_spec ords Hords (cur (setCur (vcons v) g)) _ W1) as (j & g1 & c & E & _ & _ & _ & W2 & _).
  rewrite E. cbn [bind newSlice]. change (members_of node) with [MField "next" (TStruct "node")]. rewrite IH; [reflexivity|exact W2].
Qed.
Lemma node_never : forall n rn, GenerateFiles grow ords sel osX n nodeFiles rn = OutOfFuel.
Proof.
  intros n rn. unfold GenerateFiles. change (NewResolverFiles osX nodeFiles) with (Ok (theRes nodeFiles)). cbn [bind].
  change (flat_map fstructs nodeFiles) with [node]. cbn [suites]. change (Extern node) with false. cbn iota.
  destruct (newMap NewConstraints _) as [c g1] eqn:EN. unfold structure, structureWith.
  destruct (newMap_spec _ _ _ _ EN) as (_ & (A & _) & _).
  assert (W1 : wfg (setCur c g1)) by (unfold wfg; cbn [maps setCur]; rewrite A; constructor; [apply goMap_new|constructor]).
  destruct (cloneGlobalMap_spec ords Hords (cur (setCur c g1)) _ W1) as (j & g2 & d & E & _ & _ & _ & W2 & _).
  rewrite E. cbn [bind newSlice]. change (members_of node) with [MField "next" (TStruct "node")]. rewrite node_members; [reflexivity|exact W2].
Qed.
End Node.

(** [struct back { u8 x IN [5..3]; }]: every run panics. *)
Definition back := mkStruct "back" [] (Some [MField "x" (TInt 8 (Some [mkRange (ILit 5) (Some (ILit 3))]))]).
Definition backFiles := one [back].
(** [struct wide { u64 t; union u[t] { default: u8 a; }; }]: no run ends. *)
Definition wide := mkStruct "wide" [] (Some [MField "t" (TInt 64 None); MUnion "u" (local "t") None [UCase None [u8 "a"]]]).
Definition wideFiles := one [wide].
Section Two.
Variable grow : nat -> nat -> nat.
Variable ords : nat -> uorders.
Hypothesis Hords : forall n, goodOrders (ords n).
Variable sel : nat -> list vec -> list vec.
Lemma back_panics : forall n rn, GenerateFiles grow ords sel osX (S n) backFiles rn = Panic "bad range".
Proof.
  intros n rn. unfold GenerateFiles. change (NewResolverFiles osX backFiles) with (Ok (theRes backFiles)). cbn [bind].
  change (flat_map fstructs backFiles) with [back]. cbn [suites]. change (Extern back) with false. cbn iota.
  destruct (newMap NewConstraints _) as [c g1] eqn:EN. unfold structure, structureWith.
  destruct (newMap_spec _ _ _ _ EN) as (EI & (A & _) & M).
  assert (W1 : wfg (setCur c g1)) by (unfold wfg; cbn [maps setCur]; rewrite A; constructor; [apply goMap_new|constructor]).
  destruct (cloneGlobalMap_spec ords Hords (cur (setCur c g1)) _ W1) as (j & g2 & d & E & _ & _ & M2 & W2 & L2).
  rewrite E. cbn [bind newSlice]. change (members_of back) with [MField "x" (TInt 8 (Some [mkRange (ILit 5) (Some (ILit 3))]))].
  cbn [gmembers membersLoop bind extend gmember field setCur vcons]. unfold intType. cbn [cur].
  match goal with |- context [cLookup ?m "" "x"] => replace (cLookup m "" "x") with (@None Z) end; [reflexivity|].
  symmetry. etransitivity; [|exact (L2 "" "x")]. rewrite <- M2. reflexivity.
Qed.
Lemma wide_members : forall n v g, wfg g -> cLookup (mapOf g (vcons v)) "" "t" = None ->
  gmembers grow ords sel (theRes wideFiles) n wide (members_of wide) [v] g = OutOfFuel.
Proof.
  intros n v g W L. destruct n as [|n]; [reflexivity|].
  change (members_of wide) with [MField "t" (TInt 64 None); MUnion "u" (local "t") None [UCase None [u8 "a"]]].
  cbn [gmembers membersLoop bind extend gmember].
  destruct (NewBranches (theRes wideFiles) wide (local "t") [UCase None [u8 "a"]]) as [bs| | |] eqn:EB; try (vm_compute in EB; discriminate).
  assert (B : bs = [mkBranch (mkSet [mkI 0 (two64 - 1)]) (UCase None [u8 "a"])]).
  { vm_compute in EB. inversion EB. reflexivity. }
  subst bs. cbn [bind]. 
  change (cLookupRef (mapOf (setCur (vcons v) g) (cur (setCur (vcons v) g))) (local "t")) with (cLookup (mapOf g (vcons v)) "" "t").
  rewrite L. cbn [unionOptions].
  assert (W1 : wfg (setCur (vcons v) g)) by exact W.
  destruct (cloneMap_spec ords Hords (cur (setCur (vcons v) g)) _ W1) as (j & g1 & c & E & _ & _ & _ & W2 & _). rewrite E. cbn [bind unionLoop].
  destruct (cloneMap_spec ords Hords j _ W2) as (j2 & g2 & c2 & E2 & _ & _ & _ & W3 & _). rewrite E2. cbn [bind bset].
  unfold randomIn. rewrite random_full_hangs; [reflexivity| | |].
  - split; [constructor; [unfold valid, two64; cbn; lia|constructor]|unfold ordered, two64; cbn; lia].
  - discriminate.
  - intros y Hy. unfold is_u64 in Hy. unfold Contains. cbn [existsb intervals]. unfold iContains. cbn [lo hi]. unfold two64 in *. lia.
Qed.
Lemma wide_never : forall n rn, GenerateFiles grow ords sel osX n wideFiles rn = OutOfFuel.
Proof.
  intros n rn. unfold GenerateFiles. change (NewResolverFiles osX wideFiles) with (Ok (theRes wideFiles)). cbn [bind].
  change (flat_map fstructs wideFiles) with [wide]. cbn [suites]. change (Extern wide) with false. cbn iota.
  destruct (newMap NewConstraints _) as [c g1] eqn:EN. unfold structure, structureWith.
  destruct (newMap_spec _ _ _ _ EN) as (EI & (A & _) & M).
  assert (W1 : wfg (setCur c g1)) by (unfold wfg; cbn [maps setCur]; rewrite A; constructor; [apply goMap_new|constructor]).
  destruct (cloneGlobalMap_spec ords Hords (cur (setCur c g1)) _ W1) as (j & g2 & d & E & _ & _ & M2 & W2 & L2).
  rewrite E. cbn [bind newSlice]. rewrite wide_members; [reflexivity|exact W2|].
  etransitivity; [|exact (L2 "" "t")]. rewrite <- M2. reflexivity.
Qed.
End Two.
Lemma back_package : package camelX osX backFiles (theRes backFiles) (theProg backFiles).
Proof. apply package_of. vm_compute. reflexivity. Qed.
Lemma wide_package : package camelX osX wideFiles (theRes wideFiles) (theProg wideFiles).
Proof. apply package_of. vm_compute. reflexivity. Qed.

(** Declarations on which the generator reports an error: a length "leftover",
    a list with the same integer twice, and an array of structs that each have
    two vectors for different values of a context field. *)
Definition rest := mkStruct "rest" [] (Some [MField "x" (TVar (TInt 8 None) (Some (LLeftover (ILit 2)))); MField "y" (TInt 16 None)]).
Definition restFiles := one [rest].
Definition twice := mkStruct "twice" [] (Some [MField "x" (TInt 8 (Some [mkRange (ILit 1) None; mkRange (ILit 1) None]))]).
Definition twiceFiles := one [twice].
Definition alt := mkStruct "alt" ["opts"] (Some [MUnion "u" (mkRef "opts" "t") None [UCase (is 1) [u8 "a"]; UCase (is 2) [u8 "b"]]]).
Definition alts := mkStruct "alts" ["opts"] (Some [MField "es" (TFixed (TStruct "alt") (ILit 2))]).
Definition altFiles := [mkFile [] [mkCtx "opts" [("t", TInt 8 None)]] [alt; alts] []].
Lemma errors_package : package camelX osX restFiles (theRes restFiles) (theProg restFiles) /\
  package camelX osX twiceFiles (theRes twiceFiles) (theProg twiceFiles) /\ package camelX osX altFiles (theRes altFiles) (theProg altFiles).
Proof. split; [|split]; apply package_of; vm_compute; reflexivity. Qed.
Lemma errors_reported :
  GenerateFiles goGrow (fun _ => uoX) allOf osX 50 restFiles rngX = Err "not implemented" /\
  GenerateFiles goGrow (fun _ => uoX) allOf osX 50 twiceFiles rngX = Err "overlapping intervals" /\
  GenerateFiles goGrow (fun _ => uoX) allOf osX 50 altFiles rngX = Err "conflicting constraint".
Proof. repeat split; vm_compute; reflexivity. Qed.

(** [context ctx { u8 n; }  struct unused with context ctx { u8 a; }] *)
Definition unused := mkStruct "unused" ["ctx"] (Some [u8 "a"]).
Definition unusedFiles := [mkFile [] [mkCtx "ctx" [("n", TInt 8 None)]] [unused] []].
Lemma unused_package : package camelX osX unusedFiles (theRes unusedFiles) (theProg unusedFiles).
Proof. apply package_of. vm_compute. reflexivity. Qed.
Lemma unused_corpus : GenerateFiles goGrow (fun _ => uoX) allOf osX 50 unusedFiles rngX = Ok [mkSuite "unused" [([0], [])]].
Proof. vm_compute. reflexivity. Qed.
