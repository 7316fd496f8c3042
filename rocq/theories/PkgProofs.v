(** What Package and WriteCorpus write, and when they stop. *)
From Coq Require Import ZArith String List Bool Lia.
From Verif Require Import Base Ast InspectModel IntervalsModel GoLang GenModel GenPrint TvModel PkgModel PkgSpec.
Import ListNotations.
Open Scope string_scope.
Open Scope list_scope.
Open Scope nat_scope.

Lemma written_app : forall l1 l2 rd q, written (l1 ++ l2) rd q = written l2 (written l1 rd) q.
Proof. induction l1 as [|[p b] l1 IH]; intros; cbn; auto. Qed.
Lemma written_ext : forall l r1 r2 q, (r1 q = r2 q) -> written l r1 q = written l r2 q.
Proof.
  induction l as [|[p b] l IH]; intros; cbn; auto. apply IH. destruct (path_eqb q p); auto.
Qed.

Section C.
Variable fails : nat -> option (string * option bytes).

Lemma carried_nil : forall f, carriedOut fails [] f (Ok tt) f.
Proof. intros. exists 0, []. cbn. rewrite app_nil_r. repeat split; auto. Qed.

Lemma carried_stop : forall p (c : outcome bytes) plan f x, x = (_ <- c ;; Ok tt) -> x <> Ok tt -> carriedOut fails ((p, c) :: plan) f x f.
Proof.
  intros. exists 0, []. cbn. rewrite app_nil_r. repeat split; auto; [lia|].
  destruct c; cbn in H; subst x; [congruence| | |]; right; do 2 eexists; split; try reflexivity; auto.
Qed.

Lemma carried_more : forall x p1 p2 f g, x <> Ok tt -> carriedOut fails p1 f x g -> carriedOut fails (p1 ++ p2) f x g.
Proof.
  intros x p1 p2 f g N (n1 & l1 & L1 & F1 & G1 & C1 & R1 & X1). exists n1, l1. rewrite app_length. split; [lia|].
  split; [rewrite firstn_app; replace (n1 - List.length p1) with 0 by lia; cbn; rewrite app_nil_r; auto|].
  assert (NE : forall s, nth_error p1 n1 = Some s -> nth_error (p1 ++ p2) n1 = Some s).
  { intros s S. rewrite nth_error_app1; auto. apply nth_error_Some. congruence. }
  split; auto. split; auto. split.
  - intros q [Q|Q]; [contradiction|]. apply R1. right. intros s S. apply Q. apply NE. auto.
  - destruct x as [[]|e|m|]; [congruence| | |]; (destruct X1 as [X1|(p & c & A & C & D)]; [left; exact X1|right; exists p, c; auto]).
Qed.

Lemma carried_app : forall p1 p2 f x g k, carriedOut fails p1 f x g ->
  (x = Ok tt -> carriedOut fails p2 g (fst (k g)) (snd (k g))) ->
  carriedOut fails (p1 ++ p2) f (fst (andThen (x, g) k)) (snd (andThen (x, g) k)).
Proof.
  intros p1 p2 f x g k (n1 & l1 & L1 & F1 & G1 & C1 & R1 & X1) H2. unfold andThen. cbn [fst snd].
  destruct x as [u|e|m|].
  - destruct u. destruct (H2 eq_refl) as (n2 & l2 & L2 & F2 & G2 & C2 & R2 & X2). subst n1.
    exists (List.length p1 + n2), (l1 ++ l2). rewrite app_length. split; [lia|].
    split; [rewrite firstn_app_2, map_app; f_equal; auto; rewrite <- F1; symmetry; apply firstn_all|].
    split; [rewrite G2, G1, app_assoc; auto|]. split; [lia|].
    assert (NE : forall s, nth_error (p1 ++ p2) (List.length p1 + n2) = Some s <-> nth_error p2 n2 = Some s).
    { intros. rewrite nth_error_app2 by lia. replace (List.length p1 + n2 - List.length p1) with n2 by lia. tauto. }
    split.
    + intros q Q. rewrite written_app. rewrite R2.
      * apply written_ext. apply R1. auto.
      * destruct Q as [Q|Q]; auto. right. intros s S. apply Q. apply NE. auto.
    + destruct (fst (k g)) as [u|e|m|].
      * rewrite X2. reflexivity.
      * destruct X2 as [(n & e' & lf & A & B & C)|(p & c & A & C & D)].
        -- left. exists n, e', lf. split; [lia|auto].
        -- right. exists p, c. split; [apply NE; auto|]. split; auto. intros. rewrite written_app, D. apply written_ext, R1. auto.
      * destruct X2 as [(n & e' & lf & A & B & C)|(p & c & A & C & D)]; [discriminate|].
        right. exists p, c. split; [apply NE; auto|]. split; auto. intros. rewrite written_app, D. apply written_ext, R1. auto.
      * destruct X2 as [(n & e' & lf & A & B & C)|(p & c & A & C & D)]; [discriminate|].
        right. exists p, c. split; [apply NE; auto|]. split; auto. intros. rewrite written_app, D. apply written_ext, R1. auto.
  - apply (carried_more (Err e)); [discriminate|]. exists n1, l1. auto 8.
  - apply (carried_more (Panic m)); [discriminate|]. exists n1, l1. auto 8.
  - apply (carried_more OutOfFuel); [discriminate|]. exists n1, l1. auto 8.
Qed.

Lemma carried_write : forall p b f, carriedOut fails [(p, Ok b)] f (fst (writeFile fails p b f)) (snd (writeFile fails p b f)).
Proof.
  intros. unfold writeFile. destruct (fails (fcount f)) as [[e [x|]]|] eqn:E; cbn [fst snd].
  - exists 0, []. cbn. rewrite app_nil_r. repeat split; auto.
    + intros q [Q|Q]; [discriminate|]. unfold putFile, path_eqb. destruct (list_eq_dec string_dec q p); auto. exfalso.
      apply (Q _ eq_refl). auto.
    + left. exists (fcount f), e, (Some x). repeat split; auto.
  - exists 0, []. cbn. rewrite app_nil_r. repeat split; auto. left. exists (fcount f), e, None. repeat split; auto.
  - exists 1, [(p, b)]. cbn. repeat split; auto.
Qed.
Lemma carried_mkdir : forall p f, carriedOut fails [] f (fst (mkdirAll fails p f)) (snd (mkdirAll fails p f)).
Proof.
  intros. unfold mkdirAll. destruct (fails (fcount f)) as [[e x]|] eqn:E; cbn [fst snd]; exists 0, []; cbn; rewrite app_nil_r; repeat split; auto.
  left. exists (fcount f), e, x. repeat split; auto.
Qed.

Lemma carried_vectors : forall namer base ty vs f,
  carriedOut fails (known (map (fun v => (base ++ [ty; "corpus"; namer (fst v)], fst v)) vs)) f
    (fst (writeVectors fails namer (base ++ [ty; "corpus"]) vs f)) (snd (writeVectors fails namer (base ++ [ty; "corpus"]) vs f)).
Proof.
  induction vs as [|v vs IH]; intros f; [apply carried_nil|]. cbn [writeVectors map known].
  destruct (writeFile fails ((base ++ [ty; "corpus"]) ++ [namer (fst v)]) (fst v) f) as [x g] eqn:E.
  apply (carried_app [_]); [|intros; apply IH].
  rewrite <- app_assoc in E. cbn [app] in E. cbn [fst snd].
  pose proof (carried_write (base ++ [ty; "corpus"; namer (fst v)]) (fst v) f) as W. rewrite E in W. exact W.
Qed.
Theorem carried_corpus : forall namer base c f,
  carriedOut fails (known (corpusFiles namer base c)) f (fst (writecorpus fails namer base c f)) (snd (writecorpus fails namer base c f)).
Proof.
  induction c as [|s c IH]; intros f; [apply carried_nil|]. cbn [writecorpus corpusFiles flat_map].
  unfold known. rewrite map_app. fold (known (map (fun v => (base ++ [stype s; "corpus"; namer (fst v)], fst v)) (svectors s))).
  fold (corpusFiles namer base c). fold (known (corpusFiles namer base c)).
  destruct (mkdirAll fails (base ++ [stype s; "corpus"]) f) as [x g] eqn:E.
  apply (carried_app []); [pose proof (carried_mkdir (base ++ [stype s; "corpus"]) f) as W; rewrite E in W; exact W|]. intros ->.
  destruct (writeVectors fails namer (base ++ [stype s; "corpus"]) (svectors s) g) as [y h] eqn:E2.
  apply carried_app; [|intros; apply IH].
  pose proof (carried_vectors namer base (stype s) (svectors s) g) as W. rewrite E2 in W. exact W.
Qed.

(** The directories exist after a success. *)
Lemma vectors_dirs : forall namer dir vs f x g, writeVectors fails namer dir vs f = (x, g) -> fdirs g = fdirs f.
Proof.
  induction vs as [|v vs IH]; cbn; intros; [inversion H; auto|]. unfold andThen in H.
  destruct (writeFile fails (dir ++ [namer (fst v)]) (fst v) f) as [y h] eqn:E. cbn in H.
  assert (D : fdirs h = fdirs f) by (unfold writeFile in E; destruct (fails (fcount f)) as [[? [?|]]|]; inversion E; auto).
  destruct y; try (inversion H; subst; congruence). apply IH in H. congruence.
Qed.
Theorem corpus_dirs : forall namer base c f g, writecorpus fails namer base c f = (Ok tt, g) ->
  fdirs g = fdirs f ++ map (fun s => base ++ [stype s; "corpus"]) c.
Proof.
  induction c as [|s c IH]; cbn; intros; [inversion H; subst; now rewrite app_nil_r|]. unfold andThen in H.
  destruct (mkdirAll fails (base ++ [stype s; "corpus"]) f) as [y h] eqn:E. cbn in H. unfold mkdirAll in E.
  destruct (fails (fcount f)) as [[? ?]|]; inversion E; subst; [discriminate|]. 
  destruct (writeVectors _ _ _ _ _) as [y h] eqn:E2 in H. cbn in H. destruct y; try discriminate.
  apply IH in H. apply vectors_dirs in E2. rewrite H, E2. cbn. now rewrite <- app_assoc.
Qed.

Section P.
Variable render : program -> outcome bytes.
Variables renderTests renderFuzz : list emitted -> outcome bytes.
Variable namer : bytes -> string.
Variable camel : string -> string.
Variable dir : path.

Lemma carried_given : forall p (c : outcome bytes) plan f k,
  (forall b, c = Ok b -> carriedOut fails ((p, Ok b) :: plan) f (fst (k b)) (snd (k b))) ->
  carriedOut fails ((p, c) :: plan) f (fst (given c f k)) (snd (given c f k)).
Proof.
  intros. destruct c as [b|e|m|]; cbn [given fst snd]; [apply H; auto| | |]; apply carried_stop; auto; discriminate.
Qed.
Lemma carried_first : forall p b plan f k,
  (forall g, carriedOut fails plan g (fst (k g)) (snd (k g))) ->
  carriedOut fails ((p, Ok b) :: plan) f (fst (andThen (writeFile fails p b f) k)) (snd (andThen (writeFile fails p b f) k)).
Proof.
  intros. destruct (writeFile fails p b f) as [x g] eqn:E. apply (carried_app [_]); [|auto].
  pose proof (carried_write p b f) as W. rewrite E in W. exact W.
Qed.

Theorem carried_package : forall prog vectors f,
  let r := PackageWith fails render renderTests renderFuzz namer camel dir prog vectors f in
  carriedOut fails (packagePlan render renderTests renderFuzz namer camel dir prog vectors) f (fst r) (snd r).
Proof.
  intros. unfold r, PackageWith, packagePlan. apply carried_given. intros b _. apply carried_first. intros g.
  destruct (notImplemented vectors); [apply carried_nil|].
  destruct vectors as [c|e|m|]; cbn [given]; try (apply carried_stop; [reflexivity|discriminate]).
  destruct (writecorpus fails namer (dir ++ ["testdata"; "fuzz"]) c g) as [x h] eqn:E.
  apply carried_app; [pose proof (carried_corpus namer (dir ++ ["testdata"; "fuzz"]) c g) as W; rewrite E in W; exact W|]. intros _.
  apply carried_given. intros t _. apply carried_first. intros g2.
  apply carried_given. intros z _. apply carried_write.
Qed.
End P.

(** Reading the files back. *)
Lemma written_other : forall l rd p, (forall b, ~ In (p, b) l) -> written l rd p = rd p.
Proof.
  induction l as [|[p' b'] l IH]; intros rd p N; cbn; auto. rewrite IH by (intros b I; apply (N b); right; auto).
  unfold path_eqb. destruct (list_eq_dec string_dec p p'); auto. exfalso. apply (N b'). left. congruence.
Qed.
Lemma written_in : forall l rd p b, (forall b', In (p, b') l -> b' = b) -> (In (p, b) l \/ rd p = Some b) -> written l rd p = Some b.
Proof.
  induction l as [|[p' b'] l IH]; intros rd p b U I; cbn; [destruct I as [[]|]; auto|].
  apply IH; [intros b2 J; apply U; right; auto|]. unfold path_eqb. destruct (list_eq_dec string_dec p p') as [->|N].
  - right. f_equal. apply U. left. auto.
  - destruct I as [[I|I]|I]; [inversion I; congruence|auto|auto].
Qed.
End C.
