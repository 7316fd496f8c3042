(** Property C74: building over what earlier builds have left.

    [quiet w]: no file operation fails; [setFails fl w]: the operations that
    [fl] says fail; [apart w dir names f]: none of the source files is one of
    the files that the build writes (BuildAgain.v). *)
From Coq Require Import ZArith String Ascii List Bool Lia Permutation.
From Verif Require Import PegModel PegGrammar PegTop SyntaxSpec PegExact.
From Verif Require Import Base Ast IntervalsModel InspectModel InspectSpec InspectProofs GoLang GenModel PackageSpec PackageProofs TvModel PkgModel PkgSpec
  GenExamples GenWitness TvWitness P_Package BuildModel BuildProofs BuildAgain P_Build.
Import ListNotations.
Open Scope string_scope.
Open Scope list_scope.
Open Scope Z_scope.

(** Nothing but the sources matters: over two disks that agree on the sources, a
    build has the same outcome and does the same writes, and any file has the
    same content after both or is left alone by both. *)
Theorem C74_sources_alone : forall w m n dir names f1 f2, quiet w -> (forall name, In name names -> inputs w f1 name = inputs w f2 name) ->
  fst (build w m n dir names f1) = fst (build w m n dir names f2) /\
  (exists l, flog (snd (build w m n dir names f1)) = flog f1 ++ l /\ flog (snd (build w m n dir names f2)) = flog f2 ++ l) /\
  forall q, fread (snd (build w m n dir names f1)) q = fread (snd (build w m n dir names f2)) q \/
    (fread (snd (build w m n dir names f1)) q = fread f1 q /\ fread (snd (build w m n dir names f2)) q = fread f2 q).
Proof. exact same_outputs. Qed.
Print Assumptions C74_sources_alone.

(** Building twice is building once. *)
Theorem C74_again : forall w m n dir names f f0, quiet w -> apart w dir names f -> build w m n dir names f = (Ok tt, f0) ->
  fst (build w m n dir names f0) = Ok tt /\ forall q, fread (snd (build w m n dir names f0)) q = fread f0 q.
Proof. exact again. Qed.
Print Assumptions C74_again.

(** After a build in which any operations failed, with any outcome, building
    again gives what an undisturbed build would have given. *)
Theorem C74_repaired : forall w m n dir names f f0 fl, quiet w -> apart w dir names f -> build w m n dir names f = (Ok tt, f0) ->
  let f1 := snd (build (setFails fl w) m n dir names f) in
  fst (build w m n dir names f1) = Ok tt /\ forall q, fread (snd (build w m n dir names f1)) q = fread f0 q.
Proof. exact repaired. Qed.
Print Assumptions C74_repaired.

(** No file is ever removed, whatever fails. *)
Theorem C74_nothing_removed : forall w m n dir names f q, fread f q <> None -> fread (snd (build w m n dir names f)) q <> None.
Proof. exact nothing_removed. Qed.
Print Assumptions C74_nothing_removed.

(** A corpus only grows: a file that holds the data it is named after keeps it,
    unless two inputs have the same hash. *)
Theorem C74_corpus_kept : forall w m n dir names f nm d, quiet w -> fread f (corpusDir dir nm (bNamer w d)) = Some d ->
  fread (snd (build w m n dir names f)) (corpusDir dir nm (bNamer w d)) = Some d \/ exists d', d' <> d /\ bNamer w d' = bNamer w d.
Proof. exact corpus_kept. Qed.
Print Assumptions C74_corpus_kept.

(** Built again with other random numbers, orders of traversal and selections,
    with whatever outcome, the generated code is the same file. *)
Theorem C74_code_stays : forall w w' m m' n n' dir names f f1, build w m n dir names f = (Ok tt, f1) -> apart w dir names f ->
  bCamel w' = bCamel w -> bRender w' = bRender w -> bLocate w' = bLocate w -> all_valid (bOrders1 w) -> all_valid (bOrders1 w') -> quiet w' ->
  fread (snd (build w' m' n' dir names f1)) (dir ++ ["gen-marshallers.go"]) = fread f1 (dir ++ ["gen-marshallers.go"]).
Proof. exact code_stays. Qed.
Print Assumptions C74_code_stays.

(** The build of C55, disturbed: writing the corpus file stops half-way.  The
    test file is then missing, and building again makes it. *)
Definition halfway (k : nat) : option (string * option bytes) := if Nat.eqb k 2 then Some ("no space", Some [0; 3]) else None.
Definition disturbed : outcome unit * fsys := build (setFails halfway worldX) 2000 50 ["out"] ["src.trunnel"] (oneSource source).
Example C74_case : quiet worldX /\ apart worldX ["out"] ["src.trunnel"] (oneSource source) /\ all_valid (bOrders1 worldX) /\
  fst built = Ok tt /\ fst disturbed = Err "no space" /\
  fread (snd disturbed) (corpusDir ["out"] "elt" eltName) = Some [0; 3] /\ fread (snd disturbed) ["out"; "gen-fuzz.go"] = None /\
  fst (build worldX 2000 50 ["out"] ["src.trunnel"] (snd disturbed)) = Ok tt /\
  fread (snd (build worldX 2000 50 ["out"] ["src.trunnel"] (snd disturbed))) (corpusDir ["out"] "elt" eltName) = Some [0; 3; 108; 119; 0] /\
  (* other random numbers: another corpus file, beside the first *)
  map fst (flog (snd (build calm 2000 50 ["out"] ["src.trunnel"] (snd built)))) <> map fst (flog (snd built)) ++ map fst (flog (snd built)) /\
  fread (snd (build calm 2000 50 ["out"] ["src.trunnel"] (snd built))) (corpusDir ["out"] "elt" eltName) = Some [0; 3; 108; 119; 0].
Proof.
  split; [intros k; reflexivity|]. split.
  { intros fs name _ [<-|[]] O. cbn in O. destruct O as [O|[O|[O|(s & h & _ & O)]]]; discriminate. }
  split; [apply (pk_orders camelX osX eltFiles (theRes eltFiles) (theProg eltFiles)); apply package_of; vm_compute; reflexivity|].
  split; [vm_compute; reflexivity|]. split; [vm_compute; reflexivity|]. split; [vm_compute; reflexivity|]. split; [vm_compute; reflexivity|].
  split; [vm_compute; reflexivity|]. split; [vm_compute; reflexivity|]. split; [vm_compute; discriminate|vm_compute; reflexivity].
Qed.

(** The condition [apart] is needed: a source file that the build overwrites. *)
Definition inPlace : surroundings :=
  mkSurroundings (fun _ => None) showX (fun _ => Ok [84]) (fun _ => Ok [70]) nameX camelX goGrow (fun _ => uoX) allOf osX osX rngX (fun _ => ["out"; "gen-fuzz.go"]).
Definition onlySource : fsys :=
  mkFS (fun q => if path_eqb q ["out"; "gen-fuzz.go"] then fread (oneSource source) ["src.trunnel"] else None) [] [] 0.
Theorem C74_again_refuted : exists w m n dir names f f0, quiet w /\ build w m n dir names f = (Ok tt, f0) /\ fst (build w m n dir names f0) <> Ok tt.
Proof.
  exists inPlace, 2000%nat, 50%nat, ["out"], ["x"], onlySource, (snd (build inPlace 2000 50 ["out"] ["x"] onlySource)).
  split; [intros k; reflexivity|]. split; [apply first_is; vm_compute; reflexivity|vm_compute; discriminate].
Qed.
Print Assumptions C74_again_refuted.
