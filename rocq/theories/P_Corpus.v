(** Properties C93 and C94: names of corpus files, and lookup of vectors.

    [hexes s b]: [s] spells the bytes [b] with two hexadecimal digits each (CorpusSpec.v).
    [Sum256]: SHA-256 (CorpusModel.v). *)
From Coq Require Import ZArith String Ascii List Bool Lia.
From Verif Require Import Base Ast InspectModel InspectSpec InspectProofs GoLang GenModel GenCheck TvModel TvFacts PkgModel PkgSpec PkgProofs PackageSpec PackageProofs
  GenExamples TvWitness CorpusModel CorpusSpec CorpusProofs P_Package.
Import ListNotations.
Open Scope string_scope.
Open Scope list_scope.
Open Scope Z_scope.

(** C93: the name is the SHA-256 digest of the contents: 64 lower-case hexadecimal digits that can be read back. *)
Theorem C93_names : forall b, hexes (sha256namer b) (Sum256 b) /\ List.length (Sum256 b) = 32%nat /\ all_bytes (Sum256 b) /\
  String.length (sha256namer b) = 64%nat /\ (forall c, In c (list_ascii_of_string (sha256namer b)) -> In c hexDigits) /\
  forall d, hexes (sha256namer b) d -> d = Sum256 b.
Proof.
  intros b. destruct (sum_shape b) as [L A]. assert (H : hexes (sha256namer b) (Sum256 b)) by (apply encode_hexes; auto).
  destruct (hexes_chars _ _ H) as [L' C]. split; auto. split; auto. split; auto. split; [now rewrite L', L|]. split; auto.
  intros d H'. symmetry. eapply hexes_fun; eauto.
Qed.
Print Assumptions C93_names.

(** Two vectors have the same name exactly if they have the same digest. *)
Theorem C93_same_name : forall a b, sha256namer a = sha256namer b <-> Sum256 a = Sum256 b.
Proof.
  intros a b. split; [|intros E; unfold sha256namer; now rewrite E]. intros E. destruct (C93_names a) as (H & _). rewrite E in H.
  symmetry. eapply hexes_fun; [apply C93_names|exact H].
Qed.
Print Assumptions C93_same_name.

(** On disk, if no two of the vectors collide: each vector is in a file that is named after it, and
    only such files are new or changed. *)
Theorem C93_on_disk : forall fails base c f f', writecorpus fails sha256namer base c f = (Ok tt, f') ->
  (forall a b, In a (dataOf c) -> In b (dataOf c) -> Sum256 a = Sum256 b -> a = b) ->
  (forall s v, In s c -> In v (svectors s) -> exists n, hexes n (Sum256 (fst v)) /\ fread f' (base ++ [stype s; "corpus"; n]) = Some (fst v)) /\
  (forall q, fread f' q <> fread f q -> exists s v n, In s c /\ In v (svectors s) /\ hexes n (Sum256 (fst v)) /\ q = base ++ [stype s; "corpus"; n] /\
     fread f' q = Some (fst v)).
Proof.
  intros fails base c f f' H NC.
  destruct (C37_corpus_on_disk fails sha256namer base c f f' H) as (A & B & _).
  { intros a b Ia Ib E. apply NC; auto. now apply C93_same_name. }
  split.
  - intros s v Is Iv. exists (sha256namer (fst v)). split; [apply C93_names|auto].
  - intros q N.
    assert (D : exists s v, In s c /\ In v (svectors s) /\ q = base ++ [stype s; "corpus"; sha256namer (fst v)]).
    { set (l := flat_map (fun s => map (fun v => base ++ [stype s; "corpus"; sha256namer (fst v)]) (svectors s)) c).
      destruct (in_dec (list_eq_dec string_dec) q l) as [I|I].
      - unfold l in I. apply in_flat_map in I as (s & Is & I). apply in_map_iff in I as (v & <- & Iv). eauto.
      - exfalso. apply N. apply B. intros s v Is Iv ->. apply I. unfold l. apply in_flat_map. exists s. split; auto.
        apply in_map_iff. eauto. }
    destruct D as (s & v & Is & Iv & ->). exists s, v, (sha256namer (fst v)). repeat (split; auto). apply C93_names.
Qed.
Print Assumptions C93_on_disk.

(** Names in the repository: tv/corpus_test.go:36, and the corpora of examples/date and examples/color. *)
Example C93_case : sha256namer [104; 101; 108; 108; 111] = "2cf24dba5fb0a30e26e83b2ac5b9e29e1b161e5c1fa7425e73043362938b9824" /\
  sha256namer [59; 8; 1; 17] = "a729e4d40b3ac7e5183e9af46ac4c168295d30d453feb950d53e26f3a744973b" /\
  sha256namer [253; 148; 1] = "7eb3508f5adc365fbed9bc76a0901dc89a3d2a9c4e3c07c7eb3c1c778ae8c0e4" /\
  exists f', writecorpus (fun _ => None) sha256namer ["out"] [mkSuite "a" [([104; 101; 108; 108; 111], [])]] (mkFS (fun _ => None) [] [] O) = (Ok tt, f') /\
    fread f' ["out"; "a"; "corpus"; "2cf24dba5fb0a30e26e83b2ac5b9e29e1b161e5c1fa7425e73043362938b9824"] = Some [104; 101; 108; 108; 111].
Proof.
  split; [vm_compute; reflexivity|]. split; [vm_compute; reflexivity|]. split; [vm_compute; reflexivity|].
  eexists. split; [cbn [writecorpus]; reflexivity|]. vm_compute. reflexivity.
Qed.

(** C94: in a generated corpus, looking up a struct gives its vectors; anything else gives nil. *)
Theorem C94_lookup : forall grow ords sel os n fs rn c, GenerateFiles grow ords sel os n fs rn = Ok c -> all_valid os ->
  (forall s, defines fs s -> exists vs, Vectors c (sname s) = Some vs /\ In (mkSuite (sname s) vs) c /\
     forall u, In u c -> stype u = sname s -> svectors u = vs) /\
  (forall u, In u c -> Vectors c (stype u) = Some (svectors u)) /\
  (forall x, Vectors c x = None <-> forall s, defines fs s -> sname s <> x).
Proof.
  intros grow ords sel os n fs rn c H V. pose proof (corpus_once _ _ _ _ _ _ _ _ H V) as ND. pose proof (files_suites _ _ _ _ _ _ _ _ H) as ES.
  split; [|split].
  - intros s D. apply defines_in in D. assert (I : In (sname s) (map stype c)) by (rewrite ES; now apply in_map).
    apply in_map_iff in I as (u & E & I). exists (svectors u). rewrite <- E. split; [now apply lookup_once|]. split; [now destruct u|].
    intros u' I' E'. assert (X : Some (svectors u') = Some (svectors u)); [|now injection X].
    rewrite <- (lookup_once c u' ND I'), <- (lookup_once c u ND I). now rewrite E'.
  - intros u I. now apply lookup_once.
  - intros x. rewrite lookup_none, ES. split.
    + intros N s D <-. apply N, in_map. now apply defines_in.
    + intros N I. apply in_map_iff in I as (s & <- & I). apply (N s); auto. now apply defines_in.
Qed.
Print Assumptions C94_lookup.

(** For corpora put together by hand: the first suite of a name counts. *)
Theorem C94_added : forall c n vs m, Vectors (AddVectors c n vs) m =
  match Vectors c m with Some w => Some w | None => if String.eqb n m then Some vs else None end.
Proof.
  intros c n vs m. unfold AddVectors, AddSuite. induction c as [|s c IH]; cbn [app Vectors stype svectors]; [reflexivity|].
  destruct (String.eqb (stype s) m); auto.
Qed.
Print Assumptions C94_added.

(** So vectors that are added under a name that is there already are not found. *)
Theorem C94_added_refuted : exists c n vs, Vectors (AddVectors c n vs) n <> Some vs.
Proof. exists [mkSuite "a" []], "a", [([1], [])]. vm_compute. discriminate. Qed.
Print Assumptions C94_added_refuted.

Example C94_case : GenerateFiles goGrow (fun _ => uoX) allOf osX 50 esFiles rngX = Ok (corpusOf goGrow esFiles) /\ all_valid osX /\
  map stype (corpusOf goGrow esFiles) = ["elem"; "es"] /\ Vectors (corpusOf goGrow esFiles) "nothing" = None /\
  Vectors (corpusOf goGrow esFiles) "es" = Some (svectors (nth 1 (corpusOf goGrow esFiles) (mkSuite "" []))).
Proof. split; [vm_compute; reflexivity|]. split; [exact id_orders_valid|]. split; [vm_compute; reflexivity|]. split; vm_compute; reflexivity. Qed.
