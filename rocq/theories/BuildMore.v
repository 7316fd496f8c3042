(** When [trunnel build] succeeds. *)
From Coq Require Import ZArith String Ascii List Bool Lia Permutation.
From Verif Require Import PegModel PegGrammar PegTop SyntaxSpec PegExact.
From Verif Require Import Base Ast IntervalsModel InspectModel InspectSpec InspectProofs GoLang GenModel GenCheck GenPrint WireSpec WireProofs WireComplete
  PackageSpec PackageProofs PackageFacts PackageMore ResDet TvModel TvConstraints TvFacts TvClass TvGood TvDet TvFinish TvSucceed TvAccept PkgModel PkgSpec PkgProofs PkgFacts BuildModel BuildProofs.
Import ListNotations.
Open Scope string_scope.
Open Scope list_scope.
Open Scope nat_scope.

(** No file operation fails, and printing succeeds. *)
Record smooth (w : surroundings) : Prop := {
  sm_fails : forall k, bFails w k = None;
  sm_render : forall p, exists b, bRender w p = Ok b;
  sm_tests : forall l, exists b, bTests w l = Ok b;
  sm_fuzz : forall l, exists b, bFuzz w l = Ok b }.

Section Smooth.
Variable fails : nat -> option (string * option bytes).
Hypothesis NF : forall k, fails k = None.

Lemma write_smooth : forall p b f, exists f', writeFile fails p b f = (Ok tt, f').
Proof. intros p b f. unfold writeFile. rewrite NF. eauto. Qed.
Lemma vectors_smooth : forall namer dir vs f, exists f', writeVectors fails namer dir vs f = (Ok tt, f').
Proof.
  intros namer dir vs. induction vs as [|v vs IH]; intros f; cbn [writeVectors]; [eauto|].
  destruct (write_smooth (dir ++ [namer (fst v)]) (fst v) f) as (f1 & ->). cbn [andThen fst snd]. apply IH.
Qed.
Lemma corpus_smooth : forall namer base c f, exists f', writecorpus fails namer base c f = (Ok tt, f').
Proof.
  intros namer base c. induction c as [|s c IH]; intros f; cbn [writecorpus]; [eauto|].
  unfold mkdirAll. rewrite NF. cbn [andThen fst snd].
  match goal with |- context [writeVectors ?a ?b ?c ?d ?e] => destruct (vectors_smooth b c d e) as (f2 & ->) end.
  cbn [andThen fst snd]. apply IH.
Qed.
End Smooth.

(** The outcome of a build then depends on the two generators only. *)
Theorem build_outcome : forall w dir names f fs, smooth w -> names <> [] -> Forall2 (readAs (inputs w f)) names fs ->
  exists m0, forall m n, m0 <= m ->
    let vectors := GenerateFiles (bGrow w) (bOrds w) (bSel w) (bOrders2 w) n fs (bRng w) in
    fst (build w m n dir names f) =
      (_ <- Marshallers (bCamel w) (bOrders1 w) fs ;; if notImplemented vectors then Ok tt else _ <- vectors ;; Ok tt)%outcome.
Proof.
  intros w dir names f fs [NF SR ST SF] NN R. destruct (build_good w dir names f fs NN R) as (m0 & B). exists m0.
  intros m n L vectors. rewrite (B m n L). unfold Package, PackageWith. fold vectors.
  destruct (Marshallers (bCamel w) (bOrders1 w) fs) as [p|e|x|]; cbn [bind]; try reflexivity.
  destruct (SR p) as (b & ->). cbn [given].
  destruct (write_smooth _ NF (dir ++ ["gen-marshallers.go"]) b f) as (f1 & ->). cbn [andThen fst snd].
  destruct (notImplemented vectors); [reflexivity|].
  destruct vectors as [c|e|x|]; try reflexivity. cbn [given bind].
  destruct (corpus_smooth _ NF (bNamer w) (dir ++ ["testdata"; "fuzz"]) c f1) as (f2 & ->). cbn [andThen fst snd].
  destruct (ST (CorpusTests (bCamel w) c)) as (t & ->). cbn [given].
  destruct (write_smooth _ NF (dir ++ ["gen-marshallers_test.go"]) t f2) as (f3 & ->). cbn [andThen fst snd].
  destruct (SF (Fuzzers (bCamel w) c)) as (z & ->). cbn [given].
  destruct (write_smooth _ NF (dir ++ ["gen-fuzz.go"]) z f3) as (f4 & ->). reflexivity.
Qed.

(** Sources for which both generators are known to succeed are built, and what
    the build writes fits together. *)
Section Built.
Variable w : surroundings.
Variable dir : path.
Variable names : list string.
Variable f : fsys.
Variable fs : list file.
Hypothesis SM : smooth w.
Hypothesis NN : names <> [].
Hypothesis RD : Forall2 (readAs (inputs w f)) names fs.
Variables (r : resolver) (p : program).
Hypothesis PK : package (bCamel w) (bOrders2 w) fs r p.
Hypothesis V1 : all_valid (bOrders1 w).
Hypothesis GO : forall k, goodOrders (bOrds w k).
Hypothesis SE : forall k vs, exists rest, Permutation (bSel w k vs ++ rest) vs.
Variables (rank : string -> nat) (q : string -> bool).
Hypothesis FF : finFiles r rank fs.
Hypothesis FS : sucFiles r q fs.
Hypothesis ZA : zeroAgain (draws (bRng w)).

Lemma corpus_made : exists N c, forall n, N <= n -> GenerateFiles (bGrow w) (bOrds w) (bSel w) (bOrders2 w) n fs (bRng w) = Ok c.
Proof.
  apply (files_succeed (bGrow w) (bOrds w) (bSel w) (bOrders2 w) fs (bRng w) r rank q); auto.
  - intros n vs v I. destruct (SE n vs) as (rest & P). eapply Permutation_in; [exact P|]. apply in_or_app. auto.
  - exact (pk_orders _ _ _ _ _ PK).
  - exact (pk_resolved _ _ _ _ _ PK).
Qed.

Theorem built : forall gr sg, classFiles (bCamel w) r gr sg fs = true -> forall lim, lensFiles lim fs = true -> (lim <= maxData)%Z -> ptrFiles fs = true -> roomyFiles fs r ->
  exists m0 n0 f' b c t z, (forall m n, m0 <= m -> n0 <= n -> build w m n dir names f = (Ok tt, f')) /\
    bRender w p = Ok b /\ fread f' (dir ++ ["gen-marshallers.go"]) = Some b /\
    bTests w (CorpusTests (bCamel w) c) = Ok t /\ fread f' (dir ++ ["gen-marshallers_test.go"]) = Some t /\
    bFuzz w (Fuzzers (bCamel w) c) = Ok z /\ fread f' (dir ++ ["gen-fuzz.go"]) = Some z /\
    (forall e d, In e (CorpusTests (bCamel w) c) -> In d (eCases e) -> (blen d < lim)%Z ->
       exists s, defines fs s /\ eCallee e = cat ["Parse"; bCamel w (sname s)] /\ (scontexts s = [] -> accepts (bCamel w) p s d)) /\
    forall nm h d, fread f' (corpusDir dir nm h) = Some d -> fread f (corpusDir dir nm h) <> Some d -> (blen d < lim)%Z ->
      exists s, defines fs s /\ sname s = nm /\ (scontexts s = [] -> accepts (bCamel w) p s d).
Proof.
  intros gr sg CL lim LF LM PT RO. destruct corpus_made as (N & c & G). destruct (build_outcome w dir names f fs SM NN RD) as (m0 & B).
  destruct (build_good w dir names f fs NN RD) as (m1 & B1).
  assert (EM : Marshallers (bCamel w) (bOrders1 w) fs = Ok p).
  { rewrite (marshallers_same (bCamel w) (bOrders1 w) (bOrders2 w)); auto; [exact (pk_generated _ _ _ _ _ PK)|exact (pk_orders _ _ _ _ _ PK)]. }
  assert (ALL : forall m n, m0 + m1 <= m -> N <= n -> build w m n dir names f = (Ok tt, snd (build w (m0 + m1) N dir names f))).
  { intros m n Lm Ln. pose proof (B m n ltac:(lia)) as E. cbv zeta in E. rewrite EM, (G n Ln) in E. cbn [bind notImplemented] in E.
    rewrite (surjective_pairing (build w m n dir names f)), E. f_equal.
    rewrite (B1 m n ltac:(lia)), (B1 (m0 + m1) N ltac:(lia)). unfold Package. now rewrite (G n Ln), (G N (le_n N)). }
  pose proof (ALL (m0 + m1) N (le_n _) (le_n _)) as B0.
  destruct (build_ok w (m0 + m1) N dir names f _ B0) as (fs' & p' & b & R' & M & RE & RM & K).
  assert (fs' = fs).
  { pose proof RD as R. apply files_ok in R, R'. pose proof (filesReturn_fun _ _ _ _ R R') as E. congruence. }
  subst fs'. assert (p' = p) by congruence. subst p'.
  destruct K as [(E & _)|(c' & t & z & G' & ET & RT & EZ & RZ & _ & K)]; [rewrite (G N (le_n N)) in E; discriminate|].
  assert (c' = c) by (rewrite (G N (le_n N)) in G'; congruence). subst c'.
  exists (m0 + m1), N, (snd (build w (m0 + m1) N dir names f)), b, c, t, z. repeat (split; [assumption|]). split.
  - intros e d Ie Id L.
    exact (tests_accepted _ _ _ _ _ PK gr sg CL lim LF LM PT RO _ _ _ _ _ _ GO SE _ (pk_orders _ _ _ _ _ PK) G' e d Ie Id L).
  - intros nm h d Q NQ L. destruct (K nm h d Q) as [X|(u & k & Iu & EU & Iv & _)]; [contradiction|].
    destruct (corpus_accepted _ _ _ _ _ PK gr sg CL lim LF LM PT RO _ _ _ _ _ _ GO SE _ (pk_orders _ _ _ _ _ PK) G' u d k Iu Iv L) as (s & D & NM & A).
    exists s. split; auto. split; auto. congruence.
Qed.
End Built.
