(** From source files to the files written by [trunnel build]. *)
From Coq Require Import ZArith String Ascii List Bool Lia Permutation.
From Verif Require Import PegModel PegGrammar PegTop SyntaxSpec PegExact.
From Verif Require Import Base Ast IntervalsModel InspectModel InspectSpec InspectProofs GoLang GenModel GenCheck GenPrint WireSpec WireProofs WireComplete
  PackageSpec PackageProofs PackageFacts PackageMore TvModel TvConstraints TvFacts TvClass TvGood TvAccept PkgModel PkgSpec PkgProofs PkgFacts BuildModel.
Import ListNotations.
Open Scope string_scope.
Open Scope list_scope.
Open Scope nat_scope.

Lemma parseFiles_some : forall m d names fs, parseFiles m d names = Some (Ok fs) -> Forall2 (readAs d) names fs.
Proof.
  intros m d names. induction names as [|name names IH]; intros fs H; cbn [parseFiles] in H.
  - injection H as <-. constructor.
  - unfold parseFile in H. destruct (d name) as [data|] eqn:E; [|discriminate].
    destruct (parseString m data) as [[f|e|x|]|] eqn:P; try discriminate.
    destruct (parseFiles m d names) as [[fs'|e|x|]|] eqn:Q; try discriminate. injection H as <-. constructor; auto.
    exists data. split; auto. apply returns_denotes. exact (returns_some _ _ _ P).
Qed.

Section Build.
Variable w : surroundings.
Variables m n : nat.
Variable dir : path.
Variable names : list string.
Variable f : fsys.

(** The plan for the files [fs]. *)
Definition planOf (fs : list file) : list step :=
  packagePlan (bRender w) (bTests w) (bFuzz w) (bNamer w) (bCamel w) dir
    (Marshallers (bCamel w) (bOrders1 w) fs) (GenerateFiles (bGrow w) (bOrds w) (bSel w) (bOrders2 w) n fs (bRng w)).

Lemma build_cases : (exists x, (forall u, x <> Ok u) /\ build w m n dir names f = (x, f)) \/
  exists fs, names <> [] /\ Forall2 (readAs (inputs w f)) names fs /\
    carriedOut (bFails w) (planOf fs) f (fst (build w m n dir names f)) (snd (build w m n dir names f)).
Proof.
  unfold build. destruct names as [|nm rest] eqn:EN; [left; exists (Err "missing trunnel filenames"); split; [discriminate|auto]|].
  destruct (parseFiles m (inputs w f) (nm :: rest)) as [[fs|e|x|]|] eqn:P; cbn [given];
    try (left; eexists; split; [|reflexivity]; discriminate).
  right. exists fs. split; [discriminate|]. split; [eapply parseFiles_some; eauto|]. apply carried_package.
Qed.

(** The paths of the files a build may write. *)
Definition output (fs : list file) (q : path) : Prop :=
  q = dir ++ ["gen-marshallers.go"] \/ q = dir ++ ["gen-marshallers_test.go"] \/ q = dir ++ ["gen-fuzz.go"] \/
  exists s h, defines fs s /\ q = dir ++ ["testdata"; "fuzz"; sname s; "corpus"; h].

Lemma plan_paths : forall fs p c, In (p, c) (planOf fs) -> output fs p.
Proof.
  intros fs p c I. unfold planOf, packagePlan in I. destruct I as [I|I]; [injection I as <- <-; left; reflexivity|].
  destruct (notImplemented _); [destruct I|].
  destruct (GenerateFiles _ _ _ _ _ _ _) as [cs|e|x|] eqn:G; try (destruct I as [I|[]]; injection I as <- <-; right; left; reflexivity).
  apply in_app_or in I as [I|[I|[I|[]]]].
  - unfold known in I. apply in_map_iff in I as ([p' b] & I & J). injection I as <- <-. cbn [fst].
    apply corpusFiles_in in J as (u & v & Iu & Iv & E1 & E2). right. right. right.
    apply files_suites in G. assert (IN : In (stype u) (map stype cs)) by now apply in_map.
    rewrite G in IN. apply in_map_iff in IN as (s & ES & IS). apply filter_In in IS as [IS EX]. apply in_flat_map in IS as (fl & Ifl & IS).
    exists s, (bNamer w (fst v)). split; [split; [now apply negb_true_iff|eauto]|]. rewrite ES. rewrite E1, <- app_assoc. reflexivity.
  - injection I as <- <-. right. left. reflexivity.
  - injection I as <- <-. right. right. left. reflexivity.
Qed.

(** A file that has changed is an output. *)
Theorem only_outputs : forall q, fread (snd (build w m n dir names f)) q <> fread f q ->
  exists fs, Forall2 (readAs (inputs w f)) names fs /\ output fs q.
Proof.
  intros q N. destruct build_cases as [(x & _ & E)|(fs & _ & R & C)]; [rewrite E in N; contradiction|]. exists fs. split; auto.
  destruct C as (k & l & L & F & _ & _ & RD & X).
  assert (IN : forall p b, In (p, b) l -> In (p, Ok b) (planOf fs)).
  { intros p b I. assert (J : In (p, Ok b) (firstn k (planOf fs))) by (rewrite F; apply in_map_iff; exists (p, b); auto).
    rewrite <- (firstn_skipn k (planOf fs)). apply in_or_app. auto. }
  destruct (in_dec (list_eq_dec string_dec) q (map fst l)) as [I|I].
  - apply in_map_iff in I as ([p b] & <- & I). exact (plan_paths fs p _ (IN _ _ I)).
  - destruct (nth_error (planOf fs) k) as [[p c]|] eqn:NE.
    + destruct (list_eq_dec string_dec q p) as [->|NQ].
      * apply nth_error_In in NE. exact (plan_paths fs p c NE).
      * exfalso. apply N. rewrite RD; [|right; intros s S; injection S as <-; exact NQ].
        apply written_other. intros b J. apply I. apply in_map_iff. exists (q, b). auto.
    + exfalso. apply N. rewrite RD; [|right; discriminate].
      apply written_other. intros b J. apply I. apply in_map_iff. exists (q, b). auto.
Qed.
End Build.

Lemma known_inj : forall l l', known l = known l' -> l = l'.
Proof.
  induction l as [|[p b] l IH]; intros [|[p' b'] l'] H; try discriminate; auto. unfold known in H. cbn [map fst snd] in H.
  injection H as -> -> H. f_equal. now apply IH.
Qed.
Lemma written_or : forall l rd q b, written l rd q = Some b -> In (q, b) l \/ rd q = Some b.
Proof.
  induction l as [|[p c] l IH]; intros rd q b H; cbn [written] in H; auto. apply IH in H as [H|H]; [left; now right|].
  unfold path_eqb in H. destruct (list_eq_dec string_dec q p) as [->|]; auto. injection H as ->. left. now left.
Qed.

Section Done.
Variable w : surroundings.
Variables m n : nat.
Variable dir : path.
Variable names : list string.
Variable f : fsys.

Definition corpusDir (nm h : string) : path := dir ++ ["testdata"; "fuzz"; nm; "corpus"; h].

(** What a successful build has written. *)
Theorem build_ok : forall f', build w m n dir names f = (Ok tt, f') ->
  exists fs p b, Forall2 (readAs (inputs w f)) names fs /\ Marshallers (bCamel w) (bOrders1 w) fs = Ok p /\ bRender w p = Ok b /\
    fread f' (dir ++ ["gen-marshallers.go"]) = Some b /\
    ((GenerateFiles (bGrow w) (bOrds w) (bSel w) (bOrders2 w) n fs (bRng w) = Err "not implemented" /\
      forall q, q <> dir ++ ["gen-marshallers.go"] -> fread f' q = fread f q) \/
     exists c t z, GenerateFiles (bGrow w) (bOrds w) (bSel w) (bOrders2 w) n fs (bRng w) = Ok c /\
       bTests w (CorpusTests (bCamel w) c) = Ok t /\ fread f' (dir ++ ["gen-marshallers_test.go"]) = Some t /\
       bFuzz w (Fuzzers (bCamel w) c) = Ok z /\ fread f' (dir ++ ["gen-fuzz.go"]) = Some z /\
       (forall u d k, In u c -> In (d, k) (svectors u) -> noCollision (bNamer w) (dataOf c) -> fread f' (corpusDir (stype u) (bNamer w d)) = Some d) /\
       forall nm h d, fread f' (corpusDir nm h) = Some d -> fread f (corpusDir nm h) = Some d \/
         exists u k, In u c /\ stype u = nm /\ In (d, k) (svectors u) /\ h = bNamer w d).
Proof.
  intros f' B. destruct (build_cases w m n dir names f) as [(x & N & E)|(fs & _ & R & C)].
  { rewrite B in E. injection E as <- _. exfalso. now apply (N tt). }
  rewrite B in C. cbn [fst snd] in C. destruct C as (k & l & L & F & _ & _ & RD & X). subst k. rewrite firstn_all in F.
  change (planOf w n dir fs = known l) in F.
  assert (RD' : forall q, fread f' q = written l (fread f) q) by auto. clear RD L. unfold planOf, packagePlan in F.
  destruct l as [|[p0 b0] l]; [discriminate F|]. injection F as <- EB F.
  destruct (Marshallers (bCamel w) (bOrders1 w) fs) as [p| | |] eqn:M; cbn [bind] in EB; try discriminate.
  exists fs, p, b0. split; [exact R|]. split; [exact M|]. split; [exact EB|].
  fold (known l) in F.
  destruct (notImplemented _) eqn:NI.
  - assert (l = []) by (destruct l; [auto|discriminate F]). subst l. split.
    + rewrite RD'. cbn [written]. unfold path_eqb. destruct (list_eq_dec string_dec _ _); congruence.
    + left. split.
      * unfold notImplemented in NI. destruct (GenerateFiles _ _ _ _ _ _ _); try discriminate. apply String.eqb_eq in NI. now subst.
      * intros q NQ. rewrite RD'. cbn [written]. unfold path_eqb. destruct (list_eq_dec string_dec _ _); congruence.
  - destruct (GenerateFiles _ _ _ _ _ _ _) as [c|e|x|] eqn:G; try (destruct l as [|? l]; [discriminate F|injection F as _ F _; discriminate F]).
    assert (exists t z, bTests w (CorpusTests (bCamel w) c) = Ok t /\ bFuzz w (Fuzzers (bCamel w) c) = Ok z /\
      l = corpusFiles (bNamer w) (dir ++ ["testdata"; "fuzz"]) c ++ [(dir ++ ["gen-marshallers_test.go"], t); (dir ++ ["gen-fuzz.go"], z)]) as (t & z & ET & EZ & EL).
    { assert (A : forall pb, In pb (known l) -> exists b, snd pb = Ok b).
      { intros pb I. unfold known in I. apply in_map_iff in I as (x & <- & _). cbn. eauto. }
      rewrite <- F in A. destruct (A (dir ++ ["gen-marshallers_test.go"], bTests w (CorpusTests (bCamel w) c))) as (t & ET); [apply in_or_app; right; cbn; auto|].
      destruct (A (dir ++ ["gen-fuzz.go"], bFuzz w (Fuzzers (bCamel w) c))) as (z & EZ); [apply in_or_app; right; cbn; auto|].
      cbn [snd] in ET, EZ. exists t, z. split; auto. split; auto. apply known_inj. rewrite <- F. unfold known. rewrite map_app. cbn [map fst snd]. now rewrite ET, EZ. }
    assert (WL : forall q b, (In (q, b) l -> forall b', In (q, b') l -> b' = b) -> In (q, b) l -> q <> dir ++ ["gen-marshallers.go"] -> fread f' q = Some b).
    { intros q b U I NQ. rewrite RD'. cbn [written]. apply written_in; auto. }
    assert (LI : forall q b, In (q, b) l <-> In (q, b) (corpusFiles (bNamer w) (dir ++ ["testdata"; "fuzz"]) c) \/
      (q = dir ++ ["gen-marshallers_test.go"] /\ b = t) \/ (q = dir ++ ["gen-fuzz.go"] /\ b = z)).
    { intros q b. rewrite EL, in_app_iff. cbn [In]. split.
      - intros [I|[I|[I|[]]]]; auto; injection I as <- <-; auto.
      - intros [I|[(-> & ->)|(-> & ->)]]; auto. }
    assert (CN : forall q b, In (q, b) (corpusFiles (bNamer w) (dir ++ ["testdata"; "fuzz"]) c) -> forall s, q <> dir ++ [s]).
    { intros q b I s E. apply corpusFiles_in in I as (u & v & _ & _ & -> & _). rewrite <- app_assoc in E. apply app_inv_head in E. discriminate E. }
    assert (NE : forall a b : string, a <> b -> dir ++ [a] <> dir ++ [b]).
    { intros a b AB E. apply app_inv_head in E. congruence. }
    split.
    { rewrite RD'. cbn [written]. apply written_in.
      - intros b' I. apply LI in I as [I|[(E & _)|(E & _)]]; [exfalso; eapply CN; eauto| |]; exfalso; revert E; apply NE; discriminate.
      - right. unfold path_eqb. destruct (list_eq_dec string_dec _ _); congruence. }
    right. exists c, t, z. split; [reflexivity|]. split; [exact ET|]. split; [|split; [exact EZ|split; [|split]]].
    + apply WL; [intros _ b' I|apply LI; auto|apply NE; discriminate].
      apply LI in I as [I|[(_ & E)|(E & _)]]; auto; [exfalso; eapply CN; eauto|exfalso; revert E; apply NE; discriminate].
    + apply WL; [intros _ b' I|apply LI; auto|apply NE; discriminate].
      apply LI in I as [I|[(E & _)|(_ & E)]]; auto; [exfalso; eapply CN; eauto|exfalso; revert E; apply NE; discriminate].
    + intros u d k Iu Iv NC. assert (IC : In (corpusDir (stype u) (bNamer w d), d) (corpusFiles (bNamer w) (dir ++ ["testdata"; "fuzz"]) c)).
      { apply corpusFiles_in. exists u, (d, k). split; auto. split; auto. split; auto. unfold corpusDir. now rewrite <- app_assoc. }
      apply WL; [intros _ b' I|apply LI; auto|eapply CN; eauto].
      apply LI in I as [I|[(E & _)|(E & _)]]; [|exfalso; exact (CN _ _ IC _ E)|exfalso; exact (CN _ _ IC _ E)]. eapply corpusFiles_fun; eauto.
    + intros nm h d Q. rewrite RD' in Q. cbn [written] in Q. apply written_or in Q as [Q|Q].
      * right. apply LI in Q as [Q|[(E & _)|(E & _)]]; [|unfold corpusDir in E; apply app_inv_head in E; discriminate E|unfold corpusDir in E; apply app_inv_head in E; discriminate E].
        apply corpusFiles_in in Q as (u & [d' k] & Iu & Iv & E & ->). cbn [fst] in *. unfold corpusDir in E. rewrite <- app_assoc in E.
        apply app_inv_head in E. injection E as -> ->. exists u, k. auto.
      * left. unfold path_eqb in Q. destruct (list_eq_dec string_dec _ _) as [E|]; auto. unfold corpusDir in E. apply app_inv_head in E. discriminate E.
Qed.

(** Without arguments, or with a file that cannot be read or is not in the
    language, nothing is touched. *)
Theorem build_bad : names = [] \/ (exists name, In name names /\ forall fl, ~ readAs (inputs w f) name fl) ->
  exists e m0, forall m n, m0 <= m -> build w m n dir names f = (Err e, f).
Proof.
  intros H. destruct names as [|nm rest] eqn:EN; [exists "missing trunnel filenames", 0; reflexivity|].
  destruct H as [H|(name & I & B)]; [discriminate|].
  destruct (files_either (inputs w f) (nm :: rest)) as [(fs & R & _)|(_ & e & m0 & E)].
  - exfalso. destruct (forall2_in_l _ _ _ _ R I) as (fl & _ & Q). exact (B fl Q).
  - exists e, m0. intros m' n' L. unfold build. rewrite (E m' L). reflexivity.
Qed.
(** Otherwise the build is what gen.Package does with the files. *)
Theorem build_good : forall fs, names <> [] -> Forall2 (readAs (inputs w f)) names fs ->
  exists m0, forall m n, m0 <= m -> build w m n dir names f =
    Package (bFails w) (bRender w) (bTests w) (bFuzz w) (bNamer w) (bCamel w) dir
            (bGrow w) (bOrds w) (bSel w) (bOrders1 w) (bOrders2 w) n (bRng w) fs f.
Proof.
  intros fs N R. apply files_ok in R as (m0 & R). exists m0. intros m' n' L. unfold build. destruct names; [congruence|]. now rewrite (R m' L).
Qed.
End Done.

(** Tests and corpus files of the structs of the class are accepted. *)
Section EndToEnd.
Variable camel : string -> string.
Variable os : nat -> orders.
Variable fs : list file.
Variable r : resolver.
Variable p : program.
Hypothesis PK : package camel os fs r p.
Variables gr sg : string -> bool.
Hypothesis CL : classFiles camel r gr sg fs = true.
Variable lim : Z.
Hypothesis LF : lensFiles lim fs = true.
Hypothesis LM : (lim <= maxData)%Z.
Hypothesis PT : ptrFiles fs = true.
Hypothesis SO : roomyFiles fs r.

(** [ParseX(d)] returns a value and no error. *)
Definition accepts (s : struct) (d : bytes) : Prop :=
  exists fs1 n0, forall n, n0 <= n -> runNew camel p n s d [] = SRet (VStruct (camel (sname s)) fs1) VNil.

Lemma corpus_accepted : forall grow ords sel n rn c, (forall k, goodOrders (ords k)) -> (forall k vs, exists rest, Permutation (sel k vs ++ rest) vs) ->
  forall os', all_valid os' -> GenerateFiles grow ords sel os' n fs rn = Ok c ->
  forall u d k, In u c -> In (d, k) (svectors u) -> (blen d < lim)%Z ->
  exists s, defines fs s /\ sname s = stype u /\ (scontexts s = [] -> accepts s d).
Proof.
  intros grow ords sel n rn c GO SE os' V G u d k Iu Iv L.
  destruct (accepted camel os fs r p PK gr sg CL lim LF LM PT SO grow ords sel n rn c GO SE os' V G u d k Iu Iv L) as (s & D & N & GB & A).
  exists s. split; auto. split; auto. intros NC.
  assert (CV : ctxValues camel r s []) by (unfold ctxValues; rewrite NC; constructor).
  destruct (A (blank camel (Constant r) s) []) as (fs1 & n0 & P); auto.
  - apply (blank_goStruct camel os fs r p PK). now apply defines_in.
  - intros x y z I. rewrite NC in I. destruct I.
  - exists fs1, n0. intros n' Ln. apply (proj1 (new_same camel os fs r p PK s d [] D CV GB n') _ []). now apply P.
Qed.

Lemma tests_accepted : forall grow ords sel n rn c, (forall k, goodOrders (ords k)) -> (forall k vs, exists rest, Permutation (sel k vs ++ rest) vs) ->
  forall os', all_valid os' -> GenerateFiles grow ords sel os' n fs rn = Ok c ->
  forall e d, In e (CorpusTests camel c) -> In d (eCases e) -> (blen d < lim)%Z ->
  exists s, defines fs s /\ eCallee e = cat ["Parse"; camel (sname s)] /\ (scontexts s = [] -> accepts s d).
Proof.
  intros grow ords sel n rn c GO SE os' V G e d Ie Id L. unfold CorpusTests in Ie. apply in_flat_map in Ie as (u & Iu & J).
  destruct (constrained (svectors u)); [destruct J|]. destruct J as [<-|[]]. cbn [eCases eCallee] in *.
  apply in_map_iff in Id as ([d' k] & <- & Iv). cbn [fst] in *.
  destruct (corpus_accepted grow ords sel n rn c GO SE os' V G u d' k Iu Iv L) as (s & D & N & A). exists s. split; auto. split; auto. now rewrite N.
Qed.
End EndToEnd.
