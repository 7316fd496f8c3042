(** The corpus on disk, and the calls in emitted tests. *)
From Coq Require Import ZArith String List Bool Lia.
From Verif Require Import Base Ast IntervalsModel InspectModel InspectSpec InspectProofs GoLang GenModel GenCheck GenPrint GenSim GenSimBody GenSimProg GenTotal PackageSpec PackageProofs
  TvModel TvConstraints TvFacts PkgModel PkgSpec PkgProofs.
Import ListNotations.
Open Scope string_scope.
Open Scope list_scope.
Open Scope Z_scope.

Lemma corpusFiles_in : forall namer base c p b, In (p, b) (corpusFiles namer base c) <->
  exists s v, In s c /\ In v (svectors s) /\ p = base ++ [stype s; "corpus"; namer (fst v)] /\ b = fst v.
Proof.
  intros. unfold corpusFiles. rewrite in_flat_map. split.
  - intros (s & I & J). apply in_map_iff in J as (v & E & J). inversion E; subst. eauto 8.
  - intros (s & v & I & J & -> & ->). exists s. split; auto. apply in_map_iff. exists v. auto.
Qed.
Lemma dataOf_in : forall c s v, In s c -> In v (svectors s) -> In (fst v) (dataOf c).
Proof. intros. unfold dataOf. apply in_flat_map. exists s. split; auto. now apply in_map. Qed.
Lemma corpusFiles_fun : forall namer base c, noCollision namer (dataOf c) ->
  forall p a b, In (p, a) (corpusFiles namer base c) -> In (p, b) (corpusFiles namer base c) -> a = b.
Proof.
  intros namer base c N p a b A B. apply corpusFiles_in in A as (s & v & I & J & -> & ->). apply corpusFiles_in in B as (s' & v' & I' & J' & E & ->).
  apply app_inv_head in E. inversion E. apply N; eauto using dataOf_in.
Qed.

Section C.
Variable fails : nat -> option (string * option bytes).
Theorem corpus_written : forall namer base c f f', writecorpus fails namer base c f = (Ok tt, f') -> noCollision namer (dataOf c) ->
  (forall s v, In s c -> In v (svectors s) -> fread f' (base ++ [stype s; "corpus"; namer (fst v)]) = Some (fst v)) /\
  (forall q, (forall s v, In s c -> In v (svectors s) -> q <> base ++ [stype s; "corpus"; namer (fst v)]) -> fread f' q = fread f q) /\
  fdirs f' = fdirs f ++ map (fun s => base ++ [stype s; "corpus"]) c.
Proof.
  intros namer base c f f' H N. pose proof (carried_corpus fails namer base c f) as C. rewrite H in C. cbn [fst snd] in C.
  destruct C as (k & l & L & F & G & CN & R & X). subst k. unfold known in F. rewrite firstn_all in F.
  assert (EL : l = corpusFiles namer base c).
  { clear - F. revert l F. induction (corpusFiles namer base c) as [|[p b] t IH]; intros [|[p' b'] l] F; try discriminate; auto.
    cbn in F. inversion F. f_equal. apply IH; auto. }
  subst l. split; [|split; [|eapply corpus_dirs; eauto]].
  - intros s v I J. rewrite R by auto. apply written_in.
    + intros b' B. eapply (corpusFiles_fun namer base c N); eauto. apply corpusFiles_in. eauto 8.
    + left. apply corpusFiles_in. eauto 8.
  - intros q Q. rewrite R by auto. apply written_other. intros b B. apply corpusFiles_in in B as (s & v & I & J & E & _). eapply Q; eauto.
Qed.

(** A failure: some first vectors are complete, no other file is touched except
    the one whose write failed. *)
Theorem corpus_stopped : forall namer base c f e f', writecorpus fails namer base c f = (Err e, f') -> noCollision namer (dataOf c) ->
  exists done rest, corpusFiles namer base c = done ++ rest /\ flog f' = flog f ++ done /\
    (forall p b, In (p, b) done -> (forall b', hd_error rest <> Some (p, b')) -> fread f' p = Some b) /\
    (forall q, (forall b, ~ In (q, b) done) -> (forall b', hd_error rest <> Some (q, b')) -> fread f' q = fread f q) /\
    exists n left, fails n = Some (e, left).
Proof.
  intros namer base c f e f' H N. pose proof (carried_corpus fails namer base c f) as C. rewrite H in C. cbn [fst snd] in C.
  destruct C as (k & l & L & F & G & CN & R & X).
  assert (EL : l = firstn k (corpusFiles namer base c)).
  { unfold known in F. rewrite firstn_map in F. clear - F. revert l F. induction (firstn k (corpusFiles namer base c)) as [|[p b] t IH]; intros [|[p' b'] l] F; try discriminate; auto.
    cbn in F. inversion F. f_equal. apply IH; auto. }
  exists l, (skipn k (corpusFiles namer base c)). split; [subst l; symmetry; apply firstn_skipn|]. split; auto.
  assert (SUB : forall p b, In (p, b) l -> In (p, b) (corpusFiles namer base c)).
  { intros p b I. rewrite EL in I. rewrite <- (firstn_skipn k (corpusFiles namer base c)). apply in_or_app; auto. }
  assert (NE : forall q, (forall b', hd_error (skipn k (corpusFiles namer base c)) <> Some (q, b')) ->
                forall s, nth_error (known (corpusFiles namer base c)) k = Some s -> q <> fst s).
  { intros q Q s S E. unfold known in S. rewrite nth_error_map in S.
    destruct (nth_error (corpusFiles namer base c) k) as [[p b]|] eqn:T; [|discriminate]. cbn in S. inversion S; subst. apply (Q b). cbn.
    clear - T. revert T. generalize (corpusFiles namer base c). induction k; intros [|x t] T; try discriminate; cbn in *; [congruence|auto]. }
  split; [|split].
  - intros p b I HD. rewrite R by (right; apply NE; auto). apply written_in; [|auto]. intros b' B. eapply (corpusFiles_fun namer base c N); eauto.
  - intros q Q HD. rewrite R by (right; apply NE; auto). apply written_other. auto.
  - destruct X as [(n & e' & lf & A & B & E)|(p & cc & A & E & _)].
    + inversion E; subst. eauto.
    + exfalso. unfold known in A. rewrite nth_error_map in A. destruct (nth_error (corpusFiles namer base c) k) as [[pp bb]|]; cbn in A; [|discriminate A]. inversion A; subst. cbn in E. discriminate E.
Qed.
End C.

(** Every emitted function calls the ParseX of a defined struct, with one
    argument. *)
Theorem emitted_calls : forall camel os fs r p, package camel os fs r p ->
  forall grow ords sel os2 n rn c, GenerateFiles grow ords sel os2 n fs rn = Ok c ->
  forall e, In e (CorpusTests camel c ++ Fuzzers camel c) ->
  exists s f, In s (definedStructs fs) /\ eCallee e = cat ["Parse"; camel (sname s)] /\
    alookup (camel (sname s)) (pctors p) = Some f /\ fparams f = scontexts s /\ List.length (eArgs e) = 1%nat.
Proof.
  intros camel os fs r p PK grow ords sel os2 n rn c GF e I.
  assert (S : exists u, In u c /\ eCallee e = cat ["Parse"; camel (stype u)] /\ List.length (eArgs e) = 1%nat).
  { apply in_app_or in I as [I|I]; unfold CorpusTests, Fuzzers in I; apply in_flat_map in I as (u & Iu & J);
    (destruct (constrained (svectors u)); [destruct J|destruct J as [<-|[]]; exists u; auto]). }
  destruct S as (u & Iu & EC & EA). apply files_suites in GF.
  assert (IN : In (stype u) (map stype c)) by now apply in_map. rewrite GF in IN. apply in_map_iff in IN as (s & ES & IS).
  destruct PK as [PO PR PG PC]. unfold Marshallers in PG. rewrite PR in PG. cbn [bind] in PG.
  destruct (program_struct camel r fs p PG PC s IS) as (ds & f & ct & _ & _ & HC & _ & _ & AL).
  exists s, ct. split; auto. split; [rewrite ES; auto|]. split; auto. split; auto.
  unfold ctorFunc in HC. apply bind_ok in HC as (rv & _ & HC). inversion HC. reflexivity.
Qed.

Lemma andThen_outcomes : forall x k, (exists y f, x = (y, f) /\ (y = Ok tt \/ exists e, y = Err e)) ->
  (forall f, exists y f', k f = (y, f') /\ (y = Ok tt \/ exists e, y = Err e)) ->
  exists y f, andThen x k = (y, f) /\ (y = Ok tt \/ exists e, y = Err e).
Proof.
  intros x k (y & f & -> & [->|(e & ->)]) K; unfold andThen; cbn [fst snd]; [apply K|eauto 6].
Qed.
Lemma write_outcomes : forall fails p b f, exists y f', writeFile fails p b f = (y, f') /\ (y = Ok tt \/ exists e, y = Err e).
Proof. intros. unfold writeFile. destruct (fails (fcount f)) as [[e [x|]]|]; eauto 7. Qed.
Theorem corpus_outcomes : forall fails namer base c f, (exists f', writecorpus fails namer base c f = (Ok tt, f')) \/
  (exists e f', writecorpus fails namer base c f = (Err e, f')).
Proof.
  intros. enough (exists y f', writecorpus fails namer base c f = (y, f') /\ (y = Ok tt \/ exists e, y = Err e)) as (y & f' & E & [->|(e & ->)]); eauto.
  revert f. induction c as [|s c IH]; intros f; [cbn; eauto|]. cbn [writecorpus]. apply andThen_outcomes.
  - unfold mkdirAll. destruct (fails (fcount f)) as [[e x]|]; eauto 7.
  - intros f1. apply andThen_outcomes; [|exact IH]. generalize (svectors s) as vs. intros vs. revert f1.
    induction vs as [|v vs IHv]; intros f1; [cbn; eauto|]. cbn [writeVectors]. apply andThen_outcomes; [apply write_outcomes|exact IHv].
Qed.

Theorem package_succeeds : forall render renderTests renderFuzz namer camel dir prog vectors f l,
  packagePlan render renderTests renderFuzz namer camel dir prog vectors = known l ->
  let r := PackageWith (fun _ => None) render renderTests renderFuzz namer camel dir prog vectors f in
  fst r = Ok tt /\ flog (snd r) = flog f ++ l /\ forall q, fread (snd r) q = written l (fread f) q.
Proof.
  intros render renderTests renderFuzz namer camel dir prog vectors f l P r.
  pose proof (carried_package (fun _ => None) render renderTests renderFuzz namer camel dir prog vectors f) as C. cbv zeta in C. fold r in C.
  destruct C as (k & l' & L & F & G & CN & R & X). rewrite P in *.
  assert (OK : fst r = Ok tt).
  { destruct (fst r) as [[]|e|m|]; auto; exfalso;
    (destruct X as [(n & e' & lf & A & B & E)|(p & cc & A & E & _)]; [discriminate|];
     unfold known in A; rewrite nth_error_map in A; destruct (nth_error l k) as [[pp bb]|]; cbn in A; [|discriminate A];
     inversion A; subst; cbn in E; discriminate E). }
  rewrite OK in *. subst k. unfold known in F. rewrite firstn_all in F.
  assert (EL : l' = l).
  { clear - F. revert l' F. induction l as [|[p b] t IH]; intros [|[p' b'] l'] F; try discriminate; auto. cbn in F. inversion F. f_equal. apply IH; auto. }
  subst l'. split; auto. 
Qed.

Theorem package_no_code : forall fails render renderTests renderFuzz namer camel dir prog vectors f x,
  (p <- prog ;; render p) = x -> (forall b, x <> Ok b) ->
  PackageWith fails render renderTests renderFuzz namer camel dir prog vectors f = (_ <- x ;; Ok tt, f).
Proof.
  intros. unfold PackageWith. rewrite H. destruct x; [exfalso; eapply H0; eauto| | |]; reflexivity.
Qed.
