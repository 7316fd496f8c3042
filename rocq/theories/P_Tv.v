(** Properties C30-C36 and C57: the test vector generator.

    Vectors live in a heap of constraint maps and byte arrays (TvModel.v).
    [grow]: the capacity [append] gives to a new array.  [ords]: iteration
    orders of maps.  [sel]: the selector.  [rn]: the random source. *)
From Coq Require Import ZArith String List Bool Lia Permutation.
From Verif Require Import Base Ast IntervalsModel InspectModel InspectSpec InspectProofs BranchProofs GoLang GenModel GenCheck WireComplete
  WireSpec PackageSpec PackageProofs PackageFacts GenExamples GenWitness TvModel TvConstraints TvHeap TvFacts TvAlone TvFinish TvSucceed TvTidy TvWitness PkgModel TvBytes TvClass TvAccept.
Import ListNotations.
Open Scope string_scope.
Open Scope list_scope.
Open Scope Z_scope.

(** C30: Merge is the union of two maps, if they agree; whatever the iteration
    orders. *)
Theorem C30_merge : forall o1 o2 c d, goodOrders o1 -> goodOrders o2 -> goMap c -> goMap d ->
  ((exists m, cMerge o1 o2 c d = Ok m) <-> compatible c d) /\
  (~ compatible c d -> cMerge o1 o2 c d = Err "conflicting constraint") /\
  (forall m, cMerge o1 o2 c d = Ok m -> goMap m /\ noEmpty m /\
     forall s k, cLookup m s k = match cLookup c s k with Some v => Some v | None => cLookup d s k end).
Proof. exact merge_spec. Qed.
Print Assumptions C30_merge.

(** In the heap: the merged map is a new one, and all existing maps, the two
    merged ones included, stay as they are. *)
Theorem C30_merge_new : forall ords, (forall n, goodOrders (ords n)) -> forall i j g, wfg g ->
  (compatible (mapOf g i) (mapOf g j) -> exists m g' c, mergeMaps ords i j g = Ok (m, g') /\ m = List.length (maps g) /\
     addsMaps g g' [c] /\ mapOf g' m = c /\ wfg g' /\
     forall s k, cLookup c s k = match cLookup (mapOf g i) s k with Some v => Some v | None => cLookup (mapOf g j) s k end) /\
  (~ compatible (mapOf g i) (mapOf g j) -> mergeMaps ords i j g = Err "conflicting constraint").
Proof. exact mergeMaps_spec. Qed.
Print Assumptions C30_merge_new.

(** Clone succeeds and gives a new map with the same entries; changing one of
    the two afterwards does not change the other. *)
Theorem C30_clone : forall ords, (forall n, goodOrders (ords n)) -> forall i g, wfg g ->
  exists j g' c, cloneMap ords i g = Ok (j, g') /\ j = List.length (maps g) /\
  addsMaps g g' [c] /\ mapOf g' j = c /\ wfg g' /\ forall s k, cLookup c s k = cLookup (mapOf g i) s k.
Proof. exact cloneMap_spec. Qed.
Print Assumptions C30_clone.
Theorem C30_independent : forall i j f v g u g', (i < List.length (maps g))%nat -> i <> j ->
  lookupOrCreate i f v g = Ok (u, g') -> mapOf g' j = mapOf g j.
Proof. exact create_other. Qed.
Print Assumptions C30_independent.

Example C30_case : let c := [("", [("a", 1)])] in let d := [("", [("b", 2)]); ("ctx", [("n", 3)])] in
  goMap c /\ goMap d /\ compatible c d /\ goodOrders uoX /\
  cMerge uoX uoX c d = Ok [("", [("a", 1); ("b", 2)]); ("ctx", [("n", 3)])] /\
  cMerge uoX uoX c [("", [("a", 2)])] = Err "conflicting constraint".
Proof.
  cbv zeta. assert (G : goMap [("", [("a", 1)])]) by (split; repeat constructor; cbn; tauto).
  assert (H : goMap [("", [("b", 2)]); ("ctx", [("n", 3)])]) by (split; repeat constructor; cbn; intuition discriminate).
  split; auto. split; auto. split.
  - destruct (merge_spec uoX uoX _ _ uoX_good uoX_good G H) as (A & _). apply A. eexists. reflexivity.
  - split; [exact uoX_good|]. split; reflexivity.
Qed.

(** C31 is false.  Three causes, each with a vector that the generated tests
    contain and the generated parser rejects: bytes overwritten by a later
    [append]; a chosen length forgotten at a nested struct; a constraint on a
    length field ignored. *)
Theorem C31_vectors_accepted_refuted :
  (exists v e, badVector goGrow esFiles es v e) /\ (exists v e, badVector tight outFiles outer v e) /\ (exists v e, badVector goGrow preFiles pre v e).
Proof.
  split; [exists ([1; 90; 2; 23], []), "data too short"; exact es_bad|].
  split; [exists ([45; 134; 223; 56; 145; 234; 67; 156; 245; 78], []), "data too short"; exact out_bad|].
  exists ([1; 167], []), "integer constraint violated". exact pre_bad.
Qed.
Print Assumptions C31_vectors_accepted_refuted.

(** The second cause affects the repository's own example gen/tests/unionbasic: a
    vector for the case with a struct is rejected. *)
Theorem C31_own_example_refuted : package camelX osX basicFiles (theRes basicFiles) (theProg basicFiles) /\ defines basicFiles basic /\ scontexts basic = [] /\
  (exists c u, GenerateFiles tight (fun _ => uoX) allOf osX 50 basicFiles rngB = Ok c /\ In u c /\ stype u = "basic" /\
    constrained (svectors u) = false /\ In ([6; 28; 73; 239; 194], []) (svectors u)) /\
  fails camelX (theProg basicFiles) basic (blank camelX (Constant (theRes basicFiles)) basic) [6; 28; 73; 239; 194] [] "could not parse nul-term string".
Proof. exact basic_bad. Qed.
Print Assumptions C31_own_example_refuted.

(** Every vector consists of bytes. *)
Theorem C31_vectors_are_bytes : forall grow ords sel os n fs rn c, GenerateFiles grow ords sel os n fs rn = Ok c ->
  Forall (fun u => Forall (fun v => all_bytes (fst v)) (svectors u)) c.
Proof. exact vectors_bytes. Qed.
Print Assumptions C31_vectors_are_bytes.

(** C31 for the declarations of the class of TvClass.v (a boolean check of the
    declarations; [gr], [sg] label the structs) and vectors shorter than [lim],
    when the fields that hold lengths of unions can hold all numbers below [lim]:
    the generated parser accepts them completely, called on any receiver and with
    any contexts that have the recorded values. *)
Theorem C31_vectors_accepted_partial : forall camel os fs r p, package camel os fs r p ->
  forall gr sg, classFiles camel r gr sg fs = true -> forall lim, lensFiles lim fs = true -> lim <= maxData -> ptrFiles fs = true -> roomyFiles fs r ->
  forall grow ords sel n rn c, (forall k, goodOrders (ords k)) -> (forall k vs, exists rest, Permutation (sel k vs ++ rest) vs) ->
  forall os', all_valid os' -> GenerateFiles grow ords sel os' n fs rn = Ok c ->
  forall u d k, In u c -> In (d, k) (svectors u) -> blen d < lim ->
  exists s, defines fs s /\ sname s = stype u /\ goBytes d /\
    forall fs0 args, ctxValues camel r s args -> goStruct camel r s fs0 -> meets camel s args k ->
      exists fs1, parses camel p s fs0 d args fs1 [].
Proof. exact accepted. Qed.
Print Assumptions C31_vectors_accepted_partial.
(** 256 is always a limit; a package without unions with a length needs none. *)
Theorem C31_limit : forall camel fs r gr sg, classFiles camel r gr sg fs = true -> lensFiles 256 fs = true.
Proof. exact lens_256. Qed.
Print Assumptions C31_limit.
(** The limit is needed: a vector of 260 bytes of a declaration of the class that
    the parser rejects. *)
Theorem C31_long_refuted : badVector goGrow longFiles long (longVector, []) "data too short" /\ blen longVector = 260 /\
  classFiles camelX (theRes longFiles) noneGreedy noneGreedy longFiles = true /\ ptrFiles longFiles = true /\ solidFiles longFiles (theRes longFiles) /\
  lensFiles 256 longFiles = true /\ lensFiles 257 longFiles = false.
Proof. exact long_bad. Qed.
Print Assumptions C31_long_refuted.
Example C31_case : package camelX osX clsFiles clsR clsP /\ classFiles camelX clsR noneGreedy eltSingle clsFiles = true /\
  lensFiles 65536 clsFiles = true /\ ptrFiles clsFiles = true /\ solidFiles clsFiles clsR /\ all_valid osX /\
  GenerateFiles goGrow (fun _ => uoX) allOf osX 50 clsFiles rngX = Ok (corpusOf goGrow clsFiles) /\
  (exists u, In u (corpusOf goGrow clsFiles) /\ stype u = "pkt" /\ In (clsVector, clsCons) (svectors u)) /\
  ctxValues camelX clsR pkt [optsV 16] /\ meets camelX pkt [optsV 16] clsCons.
Proof.
  split; [exact cls_package|]. split; [exact cls_class|]. split; [reflexivity|]. split; [exact cls_ptr|]. split; [exact cls_solid|].
  split; [apply (pk_orders _ _ _ _ _ cls_package)|]. split; [apply cls_corpus|]. split; [apply cls_corpus|exact cls_args].
Qed.

Example C31_constrained_case : package camelX osX conFiles (theRes conFiles) (theProg conFiles) /\
  classFiles camelX (theRes conFiles) noneGreedy noneGreedy conFiles = true /\
  lensFiles 65536 conFiles = true /\ ptrFiles conFiles = true /\ solidFiles conFiles (theRes conFiles) /\
  exists c, GenerateFiles tight (fun _ => uoX) allOf osX 50 conFiles rngB = Ok c /\
    map (fun u => map (fun v => (nth 0 (fst v) 0, blen (fst v))) (svectors u)) c = [[(3, 8); (4, 12); (5, 12)]].
Proof. exact con_class. Qed.

(** C32 is false: what the vectors contain depends on the spare capacity that
    [append] happens to leave. *)
Theorem C32_no_sharing_refuted : exists fs os ords sel n rn c d, (forall k, goodOrders (ords k)) /\
  GenerateFiles goGrow ords sel os n fs rn = Ok c /\ GenerateFiles tight ords sel os n fs rn = Ok d /\ c <> d.
Proof.
  exists esFiles, osX, (fun _ => uoX), allOf, 50%nat, rngX, (corpusOf goGrow esFiles), (corpusOf tight esFiles).
  split; [intros; exact uoX_good|]. split; [vm_compute; reflexivity|]. split; [vm_compute; reflexivity|exact es_differ].
Qed.
Print Assumptions C32_no_sharing_refuted.

(** C32 if the elements of arrays have at most one vector each (a boolean check of
    the declarations; [sg] labels structs with one vector): whatever room [append]
    leaves, the result is the same, and so it is the one without spare room, where
    [append] never writes into an array in use.  For selectors that pick
    positions; the two of the package do. *)
Theorem C32_no_sharing_partial : forall sg fs, aloneFiles sg fs = true -> forall grow grow' ords sel ps os n rn, positions sel ps -> all_valid os ->
  GenerateFiles grow ords sel os n fs rn = GenerateFiles grow' ords sel os n fs rn.
Proof. exact alone. Qed.
Print Assumptions C32_no_sharing_partial.
Theorem C32_selectors : positions (fun _ vs => Exhaustive vs) (fun _ m => seq 0 m) /\
  forall n perm d, 0 <= n -> (forall k m, Permutation (perm k m) (seq 0 m)) ->
  exists ps, positions (fun k vs => match RandomSample n (perm k (List.length vs)) d vs with Ok l => l | _ => [] end) ps.
Proof. split; [exact all_positions|]. intros n perm d N P. eexists. exact (sample_positions n perm d N P). Qed.
Print Assumptions C32_selectors.
Example C32_case : aloneFiles eltSingle clsFiles = true /\ positions allOf (fun _ m => seq 0 m) /\ all_valid osX /\
  GenerateFiles goGrow (fun _ => uoX) allOf osX 50 clsFiles rngX = Ok (corpusOf goGrow clsFiles) /\
  (exists u, In u (corpusOf goGrow clsFiles) /\ stype u = "pkt" /\ (1 < List.length (svectors u))%nat) /\
  aloneFiles eltSingle esFiles = false.
Proof.
  split; [vm_compute; reflexivity|]. split; [exact all_positions|]. split; [apply (pk_orders _ _ _ _ _ cls_package)|]. split; [apply cls_corpus|]. split.
  - exists (nth 1 (corpusOf goGrow clsFiles) (mkSuite "" [])). split; [apply nth_In; apply Nat.ltb_lt; vm_compute; reflexivity|]. split; [vm_compute; reflexivity|apply Nat.ltb_lt; vm_compute; reflexivity].
  - vm_compute. reflexivity.
Qed.

(** C33. *)
Theorem C33_suites : forall grow ords sel os n fs rn c, GenerateFiles grow ords sel os n fs rn = Ok c ->
  map stype c = map sname (filter (fun s => negb (Extern s)) (flat_map fstructs fs)).
Proof. exact files_suites. Qed.
Print Assumptions C33_suites.
Example C33_case : GenerateFiles goGrow (fun _ => uoX) allOf osX 50 esFiles rngX = Ok (corpusOf goGrow esFiles) /\
  map stype (corpusOf goGrow esFiles) = ["elem"; "es"].
Proof. split; vm_compute; reflexivity. Qed.

(** C34: [lenconstrain] keeps exactly the candidates whose length is free or
    right, with the same bytes, and records the length for [f] and nothing
    else. *)
Theorem C34_lengths_recorded : forall ords, (forall n, goodOrders (ords n)) -> forall f vs g, wfg g ->
  Forall (fun v => (vcons v < List.length (maps g))%nat) vs ->
  exists res g', lenconstrain ords f vs g = Ok (res, g') /\
    (exists news, maps g' = maps g ++ news) /\ cur g' = cur g /\ bufs g' = bufs g /\ rnd g' = rnd g /\ wfg g' /\
    Forall2 (fun v w => vdata w = vdata v /\ (List.length (maps g) <= vcons w < List.length (maps g'))%nat /\
        cLookupRef (mapOf g' (vcons w)) f = Some (Z.of_nat (slen (vdata v))) /\
        forall s k, (s, k) <> (rscope f, rname f) -> cLookup (mapOf g' (vcons w)) s k = cLookup (mapOf g (vcons v)) s k)
      (filter (fun v => match cLookupRef (mapOf g (vcons v)) f with None => true | Some m => m =? Z.of_nat (slen (vdata v)) end) vs) res.
Proof. exact lenconstrain_spec. Qed.
Print Assumptions C34_lengths_recorded.
(** What the generator makes of a union [with length f], whatever the cases
    contain. *)
Theorem C34_union : forall grow ords, (forall n, goodOrders (ords n)) ->
  forall sel, (forall n vs v, In v (sel n vs) -> In v vs) -> forall r n strct u tag f cs g res g',
  wfg g -> (cur g < List.length (maps g))%nat ->
  gmember grow ords sel r n (structure grow ords sel r n) strct (fun c => gmembers grow ords sel r n strct (ucase_members c))
    (MUnion u tag (Some (LRef f)) cs) g = Ok (res, g') ->
  Forall (fun v => cLookupRef (mapOf g' (vcons v)) f = Some (Z.of_nat (slen (vdata v)))) res.
Proof. exact union_recorded. Qed.
Print Assumptions C34_union.
(** The states [C34_union] asks for are the ones the generator works in: its maps
    stay Go maps, and the current map and those of all vectors exist. *)
Theorem C34_states : forall grow ords, (forall n, goodOrders (ords n)) ->
  forall sel, (forall n vs v, In v (sel n vs) -> In v vs) -> forall r n strct ms vs g res g',
  wfg g -> (cur g < List.length (maps g))%nat -> Forall (fun v => (vcons v < List.length (maps g))%nat) vs ->
  gmembers grow ords sel r n strct ms vs g = Ok (res, g') ->
  wfg g' /\ (cur g' < List.length (maps g'))%nat /\ Forall (fun v => (vcons v < List.length (maps g'))%nat) res.
Proof. exact members_keep. Qed.
Print Assumptions C34_states.
Example C34_union_case :
  let cs := [UCase (Some [mkRange (ILit 1) None]) [MField "x" (TInt 8 None)];
             UCase (Some [mkRange (ILit 2) None]) [MField "y" (TInt 16 None)]] in
  let u := MUnion "u" (mkRef "" "tag") (Some (LRef (mkRef "" "n"))) cs in
  let s := mkStruct "s" [] (Some [MField "tag" (TInt 8 None); MField "n" (TInt 16 None); u]) in
  let r := theRes (one [s]) in
  let g := mkG [[]] 0 [] rngX 0 in
  wfg g /\
  match gmember goGrow (fun _ => uoX) allOf r 9 (structure goGrow (fun _ => uoX) allOf r 9) s
          (fun c => gmembers goGrow (fun _ => uoX) allOf r 9 s (ucase_members c)) u g with
  | Ok (res, g') => map (fun v => cLookup (mapOf g' (vcons v)) "" "n") res = [Some 1; Some 2]
  | _ => False
  end.
Proof. cbv zeta. split; [repeat constructor; cbn; tauto|vm_compute; reflexivity]. Qed.
Example C34_case : let g := mkG [[]; [("", [("n", 5)])]] 0 [[1; 2]; [1; 2; 3]] (mkRng (fun _ => 0) 0) 0 in
  let vs := [mkVec (mkSlice 0 2) 0; mkVec (mkSlice 1 3) 1; mkVec (mkSlice 1 3) 0] in
  wfg g /\ Forall (fun v => (vcons v < List.length (maps g))%nat) vs /\
  exists g', lenconstrain (fun _ => uoX) (mkRef "" "n") vs g = Ok ([mkVec (mkSlice 0 2) 2; mkVec (mkSlice 1 3) 4], g') /\
    mapOf g' 4 = [("", [("n", 3)])].
Proof.
  cbv zeta. split; [repeat constructor; cbn; tauto|]. split; [repeat constructor|]. eexists. split; [reflexivity|reflexivity].
Qed.

(** C35 is false: a range in the wrong order and a default branch that no tag
    reaches panic, and a struct that contains itself and a default branch that
    takes all 64-bit tags keep the generator busy for ever, whatever the random
    source, the selector and the iteration orders. *)
Theorem C35_finishes_refuted :
  (exists fs r p, package camelX osX fs r p /\ exists grow ords sel n rn, (forall k, goodOrders (ords k)) /\
     GenerateFiles grow ords sel osX n fs rn = Panic "empty set") /\
  (exists fs r p, package camelX osX fs r p /\ forall grow ords sel n rn, (forall k, goodOrders (ords k)) ->
     GenerateFiles grow ords sel osX (S n) fs rn = Panic "bad range") /\
  (exists fs r p, package camelX osX fs r p /\ forall grow ords sel n rn, (forall k, goodOrders (ords k)) ->
     GenerateFiles grow ords sel osX n fs rn = OutOfFuel) /\
  (exists fs r p rank, package camelX osX fs r p /\
     (forall s m nm t, In s (flat_map fstructs fs) -> In m (members_of s) -> m = MField nm t -> finType r rank s t) /\
     forall grow ords sel n rn, (forall k, goodOrders (ords k)) -> GenerateFiles grow ords sel osX n fs rn = OutOfFuel).
Proof.
  split; [|split; [|split]].
  - exists fullFiles, (theRes fullFiles), (theProg fullFiles). split; [apply full_panics|].
    exists goGrow, (fun _ => uoX), allOf, 50%nat, rngX. split; [intros; exact uoX_good|apply full_panics].
  - exists backFiles, (theRes backFiles), (theProg backFiles). split; [exact back_package|]. intros. now apply back_panics.
  - exists nodeFiles, (theRes nodeFiles), (theProg nodeFiles). split; [apply package_of; vm_compute; reflexivity|].
    intros. now apply node_never.
  - exists wideFiles, (theRes wideFiles), (theProg wideFiles), (fun _ => 0%nat). split; [exact wide_package|]. split.
    + intros s m nm t [<-|[]] [<-|[<-|[]]] E; inversion E; exact I.
    + intros. now apply wide_never.
Qed.
Print Assumptions C35_finishes_refuted.

(** What remains true of C35: with structs that do not contain themselves,
    ranges in order and default cases that some but not all tags take, the
    generator returns a corpus or an error.  (Missing: nothing is said about
    other declarations.)  [zeroAgain]: the random source keeps producing the
    word zero now and then, so that drawing from a set ends. *)
Theorem C35_finishes_partial : forall grow ords sel os fs rn r rank, (forall k, goodOrders (ords k)) -> all_valid os ->
  NewResolverFiles os fs = Ok r -> finFiles r rank fs -> zeroAgain (draws rn) ->
  exists N x, (forall n, (N <= n)%nat -> GenerateFiles grow ords sel os n fs rn = x) /\ ((exists c, x = Ok c) \/ exists e, x = Err e).
Proof. exact files_finish. Qed.
Print Assumptions C35_finishes_partial.

Example C35_case : NewResolverFiles osX clsFiles = Ok clsR /\
  finFiles clsR (fun n => if String.eqb n "pkt" then 1%nat else 0%nat) clsFiles /\ zeroAgain (fun _ => 0) /\
  exists c, GenerateFiles goGrow (fun _ => uoX) allOf osX 50 clsFiles (mkRng (fun _ => 0) 0) = Ok c /\ map stype c = ["elt"; "pkt"].
Proof.
  split; [vm_compute; reflexivity|]. split; [|split].
  - assert (G : forall a b, 0 <= a <= b -> b < two63 -> drawable clsR [mkRange (ILit a) (Some (ILit b))]).
    { intros a b A B. split; [discriminate|]. constructor; [|constructor]. exists a, b. cbn. intuition. }
    intros f s [<-|[]] [<-|[<-|[]]] m I.
    + destruct I as [<-|[<-|[]]]; cbn; auto. apply G; unfold two63; lia.
    + assert (E : forall s, StructNonExtern clsR "elt" = Ok s -> s = elt) by (intros s E; vm_compute in E; inversion E; reflexivity).
      destruct I as [<-|[<-|[<-|[<-|[<-|[<-|[<-|[]]]]]]]]; try (cbn; auto; fail).
      * intros s0 ES. rewrite (E s0 ES). cbn. lia.
      * split; [|cbn; intuition; rewrite (E _ H); cbn; lia].
        intros sz cst EI. vm_compute in EI. inversion EI; subst. split; [lia|].
        intros c [<-|[<-|[<-|[]]]]; cbn [ucase_list is].
        -- split; [discriminate|]. constructor; [|constructor]. exists 1, 1. cbn. unfold two63. intuition.
        -- apply G; unfold two63; lia.
        -- split; [|left; lia]. exists 0. split; [cbn; lia|].
           repeat constructor; intros (l & EL & g & a & b & Ig & R & L); inversion EL; subst; destruct Ig as [<-|[]]; inversion R; subst; lia.
  - intros p. exists 0%nat. reflexivity.
  - eexists. split; vm_compute; reflexivity.
Qed.

(** C36: a sample is a choice of distinct positions, of the right size. *)
Theorem C36_sample : forall {A} n pi (d : A) vs, 0 <= n -> Permutation pi (seq 0 (List.length vs)) ->
  exists ps, RandomSample n pi d vs = Ok (map (fun i => nth i vs d) ps) /\
    NoDup ps /\ Forall (fun i => (i < List.length vs)%nat) ps /\ Z.of_nat (List.length ps) = Z.min n (Z.of_nat (List.length vs)) /\
    (Z.of_nat (List.length vs) <= n -> ps = seq 0 (List.length vs)).
Proof. exact @sample_spec. Qed.
Print Assumptions C36_sample.
(** All of the vectors, unchanged, if there are at most [n]. *)
Theorem C36_all : forall {A} n pi (d : A) vs, Z.of_nat (List.length vs) <= n -> RandomSample n pi d vs = Ok vs.
Proof. exact @sample_all. Qed.
Print Assumptions C36_all.
Example C36_case : Permutation [2; 0; 1]%nat (seq 0 3) /\ RandomSample 2 [2; 0; 1]%nat 0 [10; 11; 12] = Ok [12; 10] /\ Exhaustive [1; 2] = [1; 2].
Proof. split; [|split; reflexivity]. apply (Permutation_trans (perm_swap 0%nat 2%nat [1%nat])). constructor. constructor. Qed.

(** C57 is false: the generator reports an error for a length "leftover", for a
    list with the same integer twice, and for an array of structs that have
    vectors for different values of a context field. *)
Theorem C57_succeeds_refuted :
  (exists fs r p, package camelX osX fs r p /\ exists grow ords sel n rn, (forall k, goodOrders (ords k)) /\
     GenerateFiles grow ords sel osX n fs rn = Err "not implemented") /\
  (exists fs r p, package camelX osX fs r p /\ exists grow ords sel n rn, (forall k, goodOrders (ords k)) /\
     GenerateFiles grow ords sel osX n fs rn = Err "overlapping intervals") /\
  (exists fs r p, package camelX osX fs r p /\ exists grow ords sel n rn, (forall k, goodOrders (ords k)) /\
     GenerateFiles grow ords sel osX n fs rn = Err "conflicting constraint").
Proof.
  destruct errors_package as (P1 & P2 & P3). destruct errors_reported as (E1 & E2 & E3).
  split; [|split].
  - exists restFiles, (theRes restFiles), (theProg restFiles). split; auto.
    exists goGrow, (fun _ => uoX), allOf, 50%nat, rngX. split; [intros; exact uoX_good|exact E1].
  - exists twiceFiles, (theRes twiceFiles), (theProg twiceFiles). split; auto.
    exists goGrow, (fun _ => uoX), allOf, 50%nat, rngX. split; [intros; exact uoX_good|exact E2].
  - exists altFiles, (theRes altFiles), (theProg altFiles). split; auto.
    exists goGrow, (fun _ => uoX), allOf, 50%nat, rngX. split; [intros; exact uoX_good|exact E3].
Qed.
Print Assumptions C57_succeeds_refuted.

(** What remains true: no error, if everything referred to is defined, no length
    is "leftover", integer lists do not overlap, and structs used as array
    elements refer to no context. *)
Theorem C57_no_error_partial : forall grow ords sel os fs r q, (forall k, goodOrders (ords k)) -> (forall n vs v, In v (sel n vs) -> In v vs) ->
  all_valid os -> NewResolverFiles os fs = Ok r -> sucFiles r q fs ->
  forall n rn e, GenerateFiles grow ords sel os n fs rn <> Err e.
Proof. exact files_no_error. Qed.
Print Assumptions C57_no_error_partial.
(** Together with the conditions of C35: the generator returns a corpus. *)
Theorem C57_succeeds_partial : forall grow ords sel os fs rn r rank q, (forall k, goodOrders (ords k)) -> (forall n vs v, In v (sel n vs) -> In v vs) ->
  all_valid os -> NewResolverFiles os fs = Ok r -> finFiles r rank fs -> sucFiles r q fs -> zeroAgain (draws rn) ->
  exists N c, forall n, (N <= n)%nat -> GenerateFiles grow ords sel os n fs rn = Ok c.
Proof. exact files_succeed. Qed.
Print Assumptions C57_succeeds_partial.

(** The declaration of C31_case, with [elt] the struct that refers to no
    context. *)
Example C57_case : NewResolverFiles osX clsFiles = Ok clsR /\ sucFiles clsR eltSingle clsFiles /\ scontexts pkt <> [].
Proof.
  split; [vm_compute; reflexivity|]. split; [|discriminate].
  assert (G : forall a b, 0 <= a <= b -> b < two63 -> good_list (Constant clsR) [mkRange (ILit a) (Some (ILit b))]).
  { intros a b A B. constructor; [|constructor]. exists a, b. cbn. intuition. }
  assert (O : forall g, ~ list_overlaps (Constant clsR) [g]).
  { intros g (l1 & x & l2 & y & l3 & ? & ? & ? & ? & ? & E & _). destruct l1 as [|? [|? ?]]; inversion E. destruct l2; discriminate. }
  assert (K : forall b, knownStruct clsR eltSingle b "elt") by (intros b; split; [exists elt; vm_compute; reflexivity|reflexivity]).
  intros f s [<-|[]] [<-|[<-|[]]] m I.
  - destruct I as [<-|[<-|[]]]; cbn; auto. split; [apply G; unfold two63; lia|apply O].
  - change (eltSingle (sname pkt)) with false.
    destruct I as [<-|[<-|[<-|[<-|[<-|[<-|[<-|[]]]]]]]]; try (cbn; auto; fail).
    + cbn. intuition. intros E; discriminate.
    + cbn [sucMember]. split; [|split; [|split]].
      * split; [exists 8, None; split; [vm_compute; reflexivity|lia]|].
        intros c l [<-|[<-|[<-|[]]]] E; inversion E; subst; (split; [discriminate|split; [|apply O]]).
        -- constructor; [|constructor]. exists 1, 1. cbn. unfold two63. intuition.
        -- apply G; unfold two63; lia.
      * intros E; discriminate.
      * intros E; discriminate.
      * cbn. repeat split; try (intros E; discriminate); try (apply (K true)); eauto.
    + cbn. intuition. intros E; discriminate.
Qed.
