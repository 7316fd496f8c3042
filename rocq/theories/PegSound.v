(** Whatever the functions of [PegDescent] accept is derivable in the grammar
    of [SyntaxSpec]. *)
From Coq Require Import ZArith String Ascii List Bool Lia ZifyBool ZifyNat.
From Verif Require Import Base Ast PegModel PegGrammar PegEngine PegRunes PegDescent PegConsume PegLexical SyntaxSpec.
Import ListNotations.
Open Scope string_scope.
Open Scope list_scope.
Open Scope Z_scope.

Definition sub {A} (R R' : prod A) : Prop := forall a ss i r, R a ss i r -> R' a ss i r.

(** Errors only grow, and a run that records none is a derivation. *)
Definition sound {A} (p : P A) (R : prod A) : Prop := forall d,
  match p d with
  | Fail er => exists x, er = derrs d ++ x
  | Done a d' => exists ss x, dling d' = dling d ++ ss /\ derrs d' = derrs d ++ x /\
                              (x = [] -> R a ss (drest d) (drest d'))
  end.

Lemma sound_sub : forall A (p : P A) R R', sound p R -> sub R R' -> sound p R'.
Proof.
  unfold sub. intros A p R R' H S d. specialize (H d). destruct (p d) as [|a d']; auto.
  destruct H as (ss & x & H1 & H2 & H3). exists ss, x. auto.
Qed.
Lemma sound_ret : forall A (a : A), sound (ret a) (empty a).
Proof. intros A a d. cbn. exists [], []. rewrite !app_nil_r. repeat split; auto. Qed.
Lemma sound_then : forall A B (p : P A) (k : A -> P B) R K,
  sound p R -> (forall a, sound (k a) (K a)) -> sound (andThen p k) (follow R K).
Proof.
  intros A B p k R K H1 H2 d. unfold andThen. specialize (H1 d). destruct (p d) as [er|a d1]; auto.
  destruct H1 as (s1 & x1 & L1 & E1 & H1). specialize (H2 a d1). destruct (k a d1) as [er|b d2].
  - destruct H2 as [x2 ->]. exists (x1 ++ x2). rewrite E1, app_assoc. reflexivity.
  - destruct H2 as (s2 & x2 & L2 & E2 & H2). exists (s1 ++ s2), (x1 ++ x2).
    rewrite L2, L1, E2, E1, !app_assoc. split; auto. split; auto. intros X. apply app_eq_nil in X.
    destruct X as [-> ->]. exists a, s1, s2, (drest d1). auto.
Qed.
Lemma sound_or : forall A (p q : P A) R1 R2, sound p R1 -> sound q R2 -> sound (p <|> q) (either R1 R2).
Proof.
  intros A p q R1 R2 H1 H2 d. unfold orElse. specialize (H1 d). destruct (p d) as [er|a d1].
  - destruct H1 as [x1 ->]. specialize (H2 (mkD (drest d) (dling d) (derrs d ++ x1))).
    destruct (q _) as [er|b d2]; cbn [drest dling derrs] in H2.
    + destruct H2 as [x2 ->]. exists (x1 ++ x2). rewrite app_assoc. reflexivity.
    + destruct H2 as (s2 & x2 & L2 & E2 & H2). exists s2, (x1 ++ x2). rewrite app_assoc. split; auto.
      split; auto. intros X. apply app_eq_nil in X. destruct X as [_ ->]. right. auto.
  - destruct H1 as (s1 & x1 & L1 & E1 & H1). exists s1, x1. split; auto. split; auto. intros X. left. auto.
Qed.
Lemma sound_opt : forall A (p : P A) R, sound p R -> sound (opt p) (maybe R).
Proof.
  intros A p R H d. unfold opt. specialize (H d). destruct (p d) as [er|a d1].
  - destruct H as [x ->]. exists [], x. cbn. rewrite app_nil_r. auto.
  - destruct H as (s1 & x1 & L1 & E1 & H1). exists s1, x1. auto.
Qed.
Lemma sound_many : forall A (p : P A) R, sound p R -> sound (many p) (star R).
Proof.
  intros A p R H. assert (G : forall n, sound (manyF n p) (star R)).
  { induction n as [|n IH]; intros d; cbn [manyF].
    - exists [], []. rewrite !app_nil_r. split; auto. split; auto. intros _. apply star_nil.
    - pose proof (H d) as Hd. destruct (p d) as [er|a d1].
      + destruct Hd as [x ->]. exists [], x. cbn. rewrite app_nil_r. split; auto. split; auto. intros _. apply star_nil.
      + destruct Hd as (s1 & x1 & L1 & E1 & H1). specialize (IH d1). destruct (manyF n p d1) as [er|l d2].
        * destruct IH as [x2 ->]. exists (x1 ++ x2). rewrite E1, app_assoc. reflexivity.
        * destruct IH as (s2 & x2 & L2 & E2 & H2). exists (s1 ++ s2), (x1 ++ x2).
          rewrite L2, L1, E2, E1, !app_assoc. split; auto. split; auto. intros X. apply app_eq_nil in X.
          destruct X as [-> ->]. eapply star_cons; eauto. }
  intros d. apply (G (S (length (drest d))) d).
Qed.

(** ** Tokens *)
Lemma sound_token : forall A (p : P A) (R : prod A),
  (forall i, (exists a r, R a [] i r /\ gives p i a [] r) \/ fails p i) -> sound p R.
Proof.
  intros A p R H [i l e]. destruct (H i) as [(a & r & Ra & G) | F].
  - rewrite G. exists [], []. cbn. rewrite !app_nil_r. auto.
  - rewrite F. exists []. rewrite app_nil_r. reflexivity.
Qed.
Lemma sound_lit : forall w, sound (lit w) (tok w).
Proof.
  intros w. apply sound_token. intros i. destruct (lit_or w i) as [[r ->]|[_ F]]; auto.
  left. exists tt, r. split; [split; auto|apply gives_lit].
Qed.
Lemma sound_ident : sound ident Identifier.
Proof.
  apply sound_token. intros i. destruct (ident_or i) as [(n & r & H)|S].
  - left. exists n, r. split; auto. apply ident_gives; auto.
  - right. apply ident_fails; auto.
Qed.
Lemma sound_cident : sound cident ConstIdentifier.
Proof.
  apply sound_token. intros i. destruct (cident_or i) as [(n & r & H)|S].
  - left. exists n, r. split; auto. apply cident_gives; auto.
  - right. apply cident_fails; auto.
Qed.
Lemma sound_sk : sound sk gap.
Proof.
  apply sound_token. intros i. destruct (blanks_total i) as [r B]. left. exists tt, r.
  split; [split; auto|]. apply sk_gives. split; auto.
Qed.
Lemma sound_sk1 : sound sk1 gap1.
Proof.
  apply sound_token. intros i. destruct (skip1_or i) as [[m B]|[N _]].
  - destruct (blanks_total m) as [r B']. left. exists tt, r. assert (G : gap1 tt [] i r) by (split; eauto).
    split; auto. apply sk1_gives. exact G.
  - right. apply sk1_fails; auto.
Qed.
Lemma sound_intLit : sound intLit Literal.
Proof.
  intros [i l e]. destruct (intLit_or i) as [(v & r & L) | [(v & r & x & H) | S]].
  - rewrite (intLit_gives _ _ _ _ L). exists [], []. cbn. rewrite !app_nil_r. auto.
  - rewrite H. exists [], [EAction x]. cbn. rewrite app_nil_r. split; auto. split; auto. discriminate.
  - rewrite (intLit_fails _ S). exists []. rewrite app_nil_r. reflexivity.
Qed.
Lemma sound_linger : forall s, sound (linger s) (fun _ ss i r => ss = [s] /\ r = i).
Proof. intros s d. cbn. exists [s], []. rewrite app_nil_r. auto. Qed.

Create HintDb sound discriminated.
#[export] Hint Resolve sound_ret sound_or sound_opt sound_many sound_lit sound_ident sound_cident sound_sk sound_sk1
  sound_intLit : sound.
#[export] Hint Extern 1 (sound (andThen _ _) (follow _ _)) => (apply sound_then; [|intros]) : sound.
#[export] Hint Extern 1 (sound _ (as_ _ _)) => (unfold as_) : sound.
Ltac sound := auto 40 with sound.

(** ** Blanks around productions *)
Lemma blanks_twice : forall i m r, blanks i m -> blanks m r -> r = m.
Proof. intros i m r H1 H2. eapply blanks_same; [|exact H2]. eapply blanks_stop; eauto. Qed.
Lemma blanks_again : forall i r, blanks i r -> blanks r r.
Proof. intros i r H. apply blanks_end. eapply blanks_stop; eauto. Qed.

(** [R] may be preceded by blanks. *)
Definition leads {A} (R : prod A) : Prop := forall i m a ss r, blanks i m -> R a ss m r -> R a ss i r.
(** [R], then blanks. *)
Definition trail {A} (R : prod A) : prod A := fun a ss i r => exists m, R a ss i m /\ blanks m r.

Lemma leads_gap : forall A (K : prod A), leads (gap ~~ K).
Proof.
  intros A K i m a ss r B (u & s1 & s2 & m' & [-> B'] & H & ->). pose proof (blanks_twice _ _ _ B B'). subst m'.
  exists tt, [], s2, m. split; [split; auto|]. auto.
Qed.
Lemma star_trail : forall A (R : prod A), leads R -> forall l ss m r, star (trail R) l ss m r ->
  forall i, blanks i m -> exists r0, star R l ss i r0 /\ blanks r0 r.
Proof.
  intros A R L l ss m r H. induction H as [m | a l s1 s2 m m1 r (m0 & H1 & B1) H2 IH]; intros i B.
  - exists i. split; auto. apply star_nil.
  - destruct (IH m0 B1) as (r0 & S & B0). exists r0. split; auto. eapply star_cons; [|exact S].
    eapply L; eauto.
Qed.

(** Algebra of productions. *)
Lemma follow_assoc : forall A B C (p : prod A) (k : A -> prod B) (h : B -> prod C),
  sub (follow (follow p k) h) (follow p (fun x => follow (k x) h)).
Proof.
  intros A B C p k h c ss i r (b & s1 & s2 & m & (a & s3 & s4 & m1 & H1 & H2 & ->) & H3 & ->).
  exists a, s3, (s4 ++ s2), m1. split; auto. split; [|rewrite app_assoc; reflexivity]. exists b, s4, s2, m. auto.
Qed.
Lemma follow_sub : forall A B (p p' : prod A) (k k' : A -> prod B),
  sub p p' -> (forall a, sub (k a) (k' a)) -> sub (follow p k) (follow p' k').
Proof. unfold sub. intros A B p p' k k' H1 H2 b ss i r (a & s1 & s2 & m & H & K & ->). exists a, s1, s2, m. repeat split; auto. Qed.
Lemma follow_next : forall A B (p : prod A) (k k' : A -> prod B),
  (forall a, sub (k a) (k' a)) -> sub (follow p k) (follow p k').
Proof. intros. apply follow_sub; auto. intros a ss i r X. exact X. Qed.
Lemma follow_empty : forall A B (a : A) (k : A -> prod B), sub (follow (empty a) k) (k a).
Proof. intros A B a k b ss i r (x & s1 & s2 & m & (-> & -> & ->) & K & ->). exact K. Qed.
Lemma follow_maybe : forall A B (p : prod A) (k : option A -> prod B),
  sub (follow (maybe p) k) (either (follow p (fun x => k (Some x))) (k None)).
Proof.
  intros A B p k b ss i r ([x|] & s1 & s2 & m & H & K & ->).
  - left. exists x, s1, s2, m. auto.
  - right. destruct H as [-> ->]. exact K.
Qed.
Lemma sub_refl : forall A (p : prod A), sub p p.
Proof. intros A p a ss i r H. exact H. Qed.
Lemma sub_trans : forall A (p q r : prod A), sub p q -> sub q r -> sub p r.
Proof. unfold sub. intros A p q r H1 H2 a ss i x H. auto. Qed.
Lemma sub_either : forall A (p q r : prod A), sub p r -> sub q r -> sub (either p q) r.
Proof. unfold sub. intros A p q r H1 H2 a ss i x [H|H]; auto. Qed.
Lemma sub_left : forall A (p q r : prod A), sub p q -> sub p (either q r).
Proof. unfold sub. intros A p q r H a ss i x H'. left. auto. Qed.
Lemma sub_right : forall A (p q r : prod A), sub p r -> sub p (either q r).
Proof. unfold sub. intros A p q r H a ss i x H'. right. auto. Qed.
Lemma follow_either : forall A B (p : prod A) (k h : A -> prod B),
  sub (follow p (fun x => either (k x) (h x))) (either (follow p k) (follow p h)).
Proof.
  intros A B p k h b ss i r (a & s1 & s2 & m & H & [K|K] & ->); [left|right]; exists a, s1, s2, m; auto.
Qed.
(** Two gaps are one. *)
Lemma gap_gap : forall A (K : prod A), sub (gap ~~ gap ~~ K) (gap ~~ K).
Proof. intros A K a ss i r (u & s1 & s2 & m & [-> B] & H & ->). eapply leads_gap; eauto. Qed.
(** Reassociates a production in front. *)
Ltac assoc := repeat first
  [ apply sub_refl
  | eapply sub_trans; [apply follow_assoc|]
  | eapply sub_trans; [apply follow_empty|]
  | apply follow_next; intros ? ].

(** ** Rules *)
Lemma sound_integer : sound integerP Int.
Proof. unfold integerP, Int. sound. Qed.
#[export] Hint Resolve sound_integer : sound.

Lemma sound_idref : sound idrefP Ref.
Proof.
  unfold idrefP, Ref. eapply sound_sub with
    (R := s <~ maybe (x <~ Identifier ;; tok "." ~~ empty x) ;; n <~ Identifier ;;
          empty (mkRef (match s with Some x => x | None => "" end) n)); [sound|].
  eapply sub_trans; [apply follow_maybe|]. apply sub_either.
  - apply sub_left. assoc.
  - apply sub_right. assoc.
Qed.
#[export] Hint Resolve sound_idref : sound.

Lemma sound_comma : forall A (p : P A) R, sound p R -> sound (commaThen p) (gap ~~ tok "," ~~ gap ~~ R).
Proof. intros. unfold commaThen. sound. Qed.
#[export] Hint Resolve sound_comma : sound.
Lemma sound_identList : sound identList (listOf Identifier).
Proof. unfold identList, listOf. sound. Qed.
Lemma sound_range : sound rangeP Range.
Proof.
  unfold rangeP. eapply sound_sub with
    (R := lo <~ Int ;; hi <~ maybe (gap ~~ tok ".." ~~ gap ~~ Int) ;; empty (mkRange lo hi)); [sound|].
  eapply sub_trans; [apply follow_next; intros; apply follow_maybe|].
  eapply sub_trans; [apply follow_either|]. apply sub_either.
  - apply sub_right. assoc.
  - apply sub_left. assoc.
Qed.
#[export] Hint Resolve sound_identList sound_range : sound.
Lemma sound_intList : sound intListP (listOf Range).
Proof. unfold intListP, listOf. sound. Qed.
#[export] Hint Resolve sound_intList : sound.
Lemma sound_constraint : sound constraintP Constraint_.
Proof. unfold constraintP, Constraint_. sound. Qed.
Lemma sound_size : sound sizeP Size.
Proof.
  unfold sizeP, Size. eapply sound_sub; [repeat apply sound_or; (apply sound_then; [sound|intros; apply sound_ret])|].
  intros a ss i r. unfold either, as_. tauto.
Qed.
#[export] Hint Resolve sound_constraint sound_size : sound.
Lemma sound_intType : sound intTypeP IntType.
Proof. unfold intTypeP, IntType. sound. Qed.
Lemma sound_length : sound lengthP Len.
Proof.
  unfold lengthP, leftoverP, Len. apply sound_or; [|sound].
  eapply sound_sub with (R := i <~ (tok "..-" ~~ Int) ;; empty (LLeftover i)); [sound|]. unfold as_. assoc.
Qed.
Lemma sound_structIdent : sound structIdent StructName.
Proof. unfold structIdent, StructName. sound. Qed.
Lemma sound_contexts : sound optContexts Contexts.
Proof.
  unfold optContexts, contextRefs, Contexts. eapply sound_sub with
    (R := c <~ maybe (gap1 ~~ tok "with" ~~ gap1 ~~ tok "context" ~~ gap1 ~~ listOf Identifier) ;;
          empty (match c with Some l => l | None => [] end)); [sound|].
  eapply sub_trans; [apply follow_maybe|]. apply sub_either; [apply sub_left|apply sub_right; apply sub_refl].
  intros a ss i r H. destruct H as (l & s1 & s2 & m & H & (-> & -> & ->) & ->). rewrite app_nil_r. exact H.
Qed.
#[export] Hint Resolve sound_intType sound_length sound_structIdent sound_contexts : sound.

(** ** Struct members *)
Section Members.
  Variables (sd : P struct) (SD : prod struct).
  Hypothesis Hsd : sound sd SD.

  Lemma sound_structRef : sound (structRef sd) (StructRef SD).
  Proof.
    unfold structRef, StructRef. apply sound_or; [|sound].
    eapply sound_sub; [apply sound_then; [exact Hsd|intros; apply sound_then; [apply sound_linger|intros; apply sound_ret]]|].
    intros a ss i r (s & s1 & s2 & m & H & (u & s3 & s4 & m1 & (-> & ->) & (-> & -> & ->) & ->) & ->).
    exists s, (s1 ++ [s]), [], m. split; [|split; [repeat split|rewrite <- app_assoc; reflexivity]].
    exists s1. auto.
  Qed.
  Hint Resolve sound_structRef : sound.
  Lemma sound_arrayBase : sound (arrayBase sd) (ArrayBase SD).
  Proof.
    unfold arrayBase, ArrayBase. eapply sound_sub with
      (R := either (as_ (fun n => TInt n None) IntType) (either (as_ (fun _ => TChar) (tok "char")) (StructRef SD)));
      [unfold as_; sound|].
    intros a ss i r. unfold either. tauto.
  Qed.
  Hint Resolve sound_arrayBase : sound.
  Lemma sound_fixedArray : sound (fixedArray sd) (FixedArray SD).
  Proof. unfold fixedArray, FixedArray. sound. Qed.
  Definition VarArray0 : prod member :=
    b <~ ArrayBase SD ;; gap1 ~~ n <~ Identifier ;; gap ~~ tok "[" ~~ l <~ Len ;; tok "]" ~~
    empty (MField n (TVar b (Some l))).
  Lemma sound_varArray0 : sound (varArray sd) VarArray0.
  Proof. unfold varArray, VarArray0. sound. Qed.
  Lemma sound_remainder : sound (remainder sd) (Remainder SD).
  Proof. unfold remainder, Remainder. sound. Qed.

  Lemma nc_dec : forall l, notConstant l \/ ~ notConstant l.
  Proof.
    intros [[s n]|x]; [|left; exact I]. cbn. unfold constantName.
    destruct (string_dec s "") as [->|Hs]; [|left; intros; congruence].
    destruct (forallb upperLater (points n)) eqn:E1; [|left; intros _ [X _]; discriminate].
    destruct (digit10 (hd 0 (points n))) eqn:E2; [left; intros _ [_ X]; discriminate|].
    right. intros X. apply X; auto.
  Qed.
  Lemma sound_grows : forall A (p : P A) R d a d', sound p R -> p d = Done a d' -> exists x, derrs d' = derrs d ++ x.
  Proof. intros A p R d a d' H E. specialize (H d). rewrite E in H. destruct H as (ss & x & _ & X & _). eauto. Qed.

  (** A length that reads as a constant is taken by the first alternative. *)
  Lemma constant_length : forall d l d', lengthP d = Done l d' -> derrs d' = derrs d ->
    ~ notConstant l -> exists s, integerP d = Done s d'.
  Proof.
    intros [i ll e] l [r' l' e'] H Hd N. cbn [derrs] in Hd. destruct l as [[s n]|x]; [|exfalso; apply N; exact I].
    cbn in N. assert (s = "" /\ constantName n) as [-> C].
    { destruct (string_dec s "") as [->|Hs]; [|exfalso; apply N; intros; congruence].
      split; auto. unfold constantName in *.
      destruct (forallb upperLater (points n)) eqn:E1; [|exfalso; apply N; intros _ [X _]; discriminate].
      destruct (digit10 (hd 0 (points n))) eqn:E2; [|auto]. exfalso; apply N; intros _ [_ X]; discriminate. }
    pose proof (sound_length (mkD i ll e)) as S. rewrite H in S. cbn [drest dling derrs] in S.
    destruct S as (ss & x & L1 & E1 & S). assert (x = []) as ->.
    { rewrite Hd in E1. apply (f_equal (@length _)) in E1. rewrite app_length in E1. destruct x; auto. cbn in E1. lia. }
    specialize (S eq_refl). destruct S as [S|S].
    { destruct S as (u & s1 & s2 & m & _ & (y & s3 & s4 & m1 & _ & (X & _) & _) & _). discriminate. }
    destruct S as (rf & s1 & s2 & m & S & (X & -> & Em) & ->). inversion X; subst rf m. clear X.
    assert (W : Identifier n s1 i r').
    { destruct S as [S|S].
      - exfalso. destruct S as (a & s3 & s4 & m1 & W & (u & s5 & s6 & m2 & _ & (b & s7 & s8 & m3 & _ & (X & _) & _) & _) & _).
        inversion X; subst a. destruct W as (_ & c & cs & _ & _ & _ & _ & W). discriminate.
      - destruct S as (a & s3 & s4 & m1 & W & (X & -> & Em) & ->). inversion X; subst a m1. rewrite app_nil_r. exact W. }
    destruct W as (-> & c & cs & F & Fs & St & -> & ->). destruct C as [C1 C2].
    assert (Cd : points (named (c :: cs)) = c :: cs).
    { clear - F Fs. assert (G : forall l, forallb later_ l = true -> points (named l) = l).
      { induction l as [|x l IH]; intros H; auto. cbn [forallb] in H. apply andb_prop in H. destruct H as [Hx H].
        unfold points, named in *. cbn [map list_ascii_of_string string_of_list_ascii].
        rewrite IH by auto. f_equal. apply byte_octet'. unfold later_, first_, lower, upper, digit10, between in Hx. lia. }
      apply G. cbn [forallb]. rewrite Fs. unfold later_. rewrite F. reflexivity. }
    rewrite Cd in C1, C2. cbn [forallb hd] in C1, C2. apply andb_prop in C1. destruct C1 as [C1 C3].
    assert (W : ConstIdentifier (named (c :: cs)) [] (c :: cs ++ r') r').
    { split; auto. exists c, cs. split; [unfold upperLater in C1; rewrite C2, orb_false_r in C1; exact C1|].
      split; auto. split; auto. clear - St. destruct r' as [|y r]; [exact I|]. cbn in St |- *.
      unfold later_, first_, upperLater in *. destruct (upper y); [destruct (lower y); discriminate|].
      destruct (digit10 y); auto. destruct (lower y); discriminate. }
    exists (IConst (named (c :: cs))). unfold integerP, orElse, andThen.
    rewrite (cident_gives _ _ _ _ W). unfold ret. rewrite L1, Hd, !app_nil_r. reflexivity.
  Qed.

  Lemma andThen_done : forall A B (p : P A) (k : A -> P B) d b d', andThen p k d = Done b d' ->
    exists a d1, p d = Done a d1 /\ k a d1 = Done b d'.
  Proof. intros A B p k d b d'. unfold andThen. destruct (p d); [discriminate|eauto]. Qed.
  Lemma andThen_eq : forall A B (p : P A) (k : A -> P B) d a d1, p d = Done a d1 -> andThen p k d = k a d1.
  Proof. intros A B p k d a d1 H. unfold andThen. rewrite H. reflexivity. Qed.

  Lemma sound_arrayP : sound (arrayP sd) (either (FixedArray SD) (VarArray SD)).
  Proof.
    intros d. pose proof (sound_fixedArray d) as F. unfold arrayP, orElse.
    destruct (fixedArray sd d) as [er|m d'] eqn:EF.
    2: { destruct F as (ss & x & L & E & H). exists ss, x. split; auto. split; auto. intros X. left. auto. }
    destruct F as [x ->]. pose proof (sound_varArray0 (mkD (drest d) (dling d) (derrs d ++ x))) as V.
    destruct (varArray sd _) as [er|m d'] eqn:EV; cbn [drest dling derrs] in V.
    { destruct V as [y ->]. exists (x ++ y). rewrite app_assoc. reflexivity. }
    destruct V as (ss & y & L & E & H). exists ss, (x ++ y). split; auto. split; [rewrite app_assoc; exact E|].
    intros X. apply app_eq_nil in X. destruct X as [-> ->]. right. specialize (H eq_refl). clear L.
    rewrite app_nil_r in EV, E. replace (mkD (drest d) (dling d) (derrs d)) with d in EV by (destruct d; reflexivity).
    destruct d' as [r' l' e'] eqn:Ed'. rewrite app_nil_r in E. cbn [derrs drest] in *.
    (* follow the run of the second alternative *)
    unfold varArray in EV.
    repeat (apply andThen_done in EV; let a := fresh "v" in let d1 := fresh "q" in let E1 := fresh "Q" in destruct EV as (a & d1 & E1 & EV)).
    unfold ret in EV. injection EV as EV1 EV2.
    unfold fixedArray in EF.
    do 5 (erewrite andThen_eq in EF by eassumption).
    assert (NC : notConstant v4).
    { destruct (nc_dec v4) as [N|N]; auto. exfalso.
      destruct (sound_grows _ _ _ _ _ _ sound_arrayBase Q) as [x1 G1].
      destruct (sound_grows _ _ _ _ _ _ sound_sk1 Q0) as [x2 G2].
      destruct (sound_grows _ _ _ _ _ _ sound_ident Q1) as [x3 G3].
      destruct (sound_grows _ _ _ _ _ _ sound_sk Q2) as [x4 G4].
      destruct (sound_grows _ _ _ _ _ _ (sound_lit "[") Q3) as [x5 G5].
      destruct (sound_grows _ _ _ _ _ _ sound_length Q4) as [x6 G6].
      destruct (sound_grows _ _ _ _ _ _ (sound_lit "]") Q5) as [x7 G7].
      assert (x6 = []) as ->.
      { assert (EE : derrs q5 = derrs d) by (rewrite EV2; exact E).
        apply (f_equal (@length _)) in EE. rewrite G7, G6, G5, G4, G3, G2, G1, !app_length in EE.
        destruct x6; auto. cbn in EE. lia. }
      rewrite app_nil_r in G6. destruct (constant_length _ _ _ Q4 G6 N) as [s0 I0].
      do 2 (erewrite andThen_eq in EF by eassumption). discriminate. }
    subst m. clear - H NC.
    destruct H as (b & s1 & t1 & m1 & H1 & H & ->). exists b, s1, t1, m1. split; auto. split; auto.
    destruct H as (u & s2 & t2 & m2 & H2 & H & ->). exists u, s2, t2, m2. split; auto. split; auto.
    destruct H as (n & s3 & t3 & m3 & H3 & H & ->). exists n, s3, t3, m3. split; auto. split; auto.
    destruct H as (u1 & s4 & t4 & m4 & H4 & H & ->). exists u1, s4, t4, m4. split; auto. split; auto.
    destruct H as (u2 & s5 & t5 & m5 & H5 & H & ->). exists u2, s5, t5, m5. split; auto. split; auto.
    destruct H as (l & s6 & t6 & m6 & H6 & H & ->). exists l, s6, t6, m6. split; [|auto].
    split; auto. destruct H as (u3 & s7 & t7 & m7 & H7 & (H & _) & _). inversion H; subst. exact NC.
  Qed.
  Hint Resolve sound_arrayP sound_remainder : sound.

  Lemma sound_smInteger : sound smInteger IntField.
  Proof. unfold smInteger, IntField. sound. Qed.
  Lemma sound_smPosition : sound smPosition Position.
  Proof. unfold smPosition, Position. sound. Qed.
  Lemma sound_smString : sound smString String_.
  Proof. unfold smString, String_. sound. Qed.
  Lemma sound_smStruct : sound (smStruct sd) (StructField SD).
  Proof. unfold smStruct, StructField. sound. Qed.
  Hint Resolve sound_smInteger sound_smPosition sound_smString sound_smStruct : sound.

  Lemma sound_ended : forall A (p : P A) R, sound p R ->
    sound (sk ;;; x <-- p ;; sk ;;; lit ";" ;;; ret x) (ended R).
  Proof. intros. unfold ended. sound. Qed.

  Lemma sound_extent : forall A (p : P A) R, sound p R -> sound (x <-- p ;; sk ;;; lit ";" ;;; ret x)
    (x <~ R ;; gap ~~ tok ";" ~~ empty x).
  Proof. intros. sound. Qed.

  Lemma sound_unionField : sound (unionField sd) (ended (Field SD)).
  Proof.
    unfold unionField. eapply sound_sub; [apply sound_ended with
      (R := either (either (FixedArray SD) (VarArray SD)) (either IntField (either String_ (StructField SD)))); sound|].
    unfold ended. apply follow_next. intros _. apply follow_sub; [|intros; apply sub_refl].
    intros a ss i r. unfold Field, either. tauto.
  Qed.
  Hint Resolve sound_unionField : sound.

  Lemma leads_ended : forall A (R : prod A), leads (ended R).
  Proof. intros. apply leads_gap. Qed.
  (** Fields begin with blanks unless there are none. *)
  Lemma leads_Fields : forall i m a ss r, blanks i m -> Fields SD a ss m r ->
    Fields SD a ss i r \/ (r = m /\ Fields SD a ss i i).
  Proof.
    intros i m a ss r B (ms & s1 & s2 & m1 & H & (e & s3 & s4 & m2 & He & (-> & -> & ->) & ->) & ->).
    inversion H as [j|x l t1 t2 j j1 j2 H1 H2]; subst.
    - destruct e as [e|].
      + left. exists [], [], (s3 ++ []), i. split; [apply star_nil|]. split; auto. exists (Some e), s3, [], m2.
        split; [|repeat split]. cbn [maybe] in *. eapply leads_ended; eauto.
      + right. destruct He as [-> ->]. split; auto. exists [], [], [], i. split; [apply star_nil|]. split; auto.
        exists None, [], [], i. repeat split.
    - left. exists (x :: l), (t1 ++ t2), (s3 ++ []), m1. split.
      + eapply star_cons; [|eassumption]. eapply leads_ended; eauto.
      + split; auto. exists e, s3, [], m2. split; auto. repeat split.
  Qed.

  (** The rest of an ended production after its blanks. *)
  Definition ending {A} (R : prod A) : prod A := x <~ R ;; gap ~~ tok ";" ~~ empty x.

  Lemma sound_unionFields : sound (unionFields sd) (either (Fields SD) (trail (Fields SD))).
  Proof.
    unfold unionFields. eapply sound_sub with
      (R := ms <~ star (ended (Field SD)) ;; gap ~~ e <~ maybe (ending (Extent SD)) ;;
            empty (ms ++ match e with Some m => [m] | None => [] end)).
    { apply sound_then; [sound|]. intros ms. apply sound_then; [sound|]. intros _. apply sound_then; [|sound].
      apply sound_opt. unfold extent, ending. eapply sound_sub with
        (R := either (tok "..." ~~ gap ~~ tok ";" ~~ empty MIgnore) (x <~ Remainder SD ;; gap ~~ tok ";" ~~ empty x)); [sound|].
      apply sub_either.
      - intros a ss i r (u & s1 & s2 & m & H & K & ->). exists MIgnore, s1, s2, m. split; auto.
        left. exists u, s1, [], m. rewrite app_nil_r. repeat split; apply H.
      - apply follow_sub; [|intros; apply sub_refl]. apply sub_right, sub_refl. }
    intros a ss i r (ms & s1 & s2 & m & H & (u & s3 & s4 & m1 & [-> B] & (e & s5 & s6 & m2 & He & (-> & -> & ->) & ->) & ->) & ->).
    destruct e as [e|].
    - left. exists ms, s1, (([] ++ s5) ++ []), m. split; auto. split; auto. exists (Some e), s5, [], m2.
      split; [|repeat split]. cbn [maybe] in *. exists tt, [], s5, m1. split; [split; auto|]. auto.
    - right. destruct He as [-> ->]. exists m. split; auto. exists ms, s1, [], m. split; auto. split; auto.
      exists None, [], [], m. repeat split.
  Qed.

  Definition BodyR : prod (list member) := fun a ss i r =>
    forall i0, blanks i0 i -> either (Body SD) (trail (Body SD)) a ss i0 r.
  Lemma sound_unionBody : sound (unionBody sd) BodyR.
  Proof.
    unfold unionBody. eapply sound_sub with
      (R := either (gap ~~ tok ";" ~~ empty []) (either (tok "fail" ~~ gap ~~ tok ";" ~~ empty [MFail])
           (either (tok "ignore" ~~ gap ~~ tok ";" ~~ empty [MIgnore]) (either (Fields SD) (trail (Fields SD))))));
      [pose proof sound_unionFields; sound|].
    intros a ss i r H i0 B.
    assert (E : forall (w : string) v, (tok w ~~ gap ~~ tok ";" ~~ empty v) a ss i r ->
                ended (as_ (fun _ => v) (tok w)) a ss i0 r).
    { intros w v (u & s1 & s2 & m & H1 & K & ->). exists tt, [], (s1 ++ s2), i. split; [split; auto|]. split; auto.
      assert (a = v) as ->.
      { destruct K as (u1 & s3 & s4 & m1 & _ & (u2 & s5 & s6 & m2 & _ & (-> & _) & _) & _). reflexivity. }
      exists v, s1, s2, m. split; [|split; auto]. exists u, s1, [], m. rewrite app_nil_r. repeat split; apply H1. }
    destruct H as [H|[H|[H|[H|H]]]].
    - left. left. left. left. eapply leads_gap with (m := i); [exact B|].
      destruct H as (u & s1 & s2 & m & H1 & K & ->).
      assert (a = []) as ->.
      { destruct K as (u2 & s5 & s6 & m2 & _ & (-> & _) & _). reflexivity. }
      assert (G : gap tt [] i i) by (split; auto; eapply blanks_again; eauto).
      exists tt, [], (s1 ++ s2), i. split; auto. split; auto.
      exists [], [], (s1 ++ s2), i. split; [repeat split|]. split; auto. exists u, s1, s2, m. auto.
    - left. left. left. right. auto.
    - left. left. right. auto.
    - destruct (leads_Fields _ _ _ _ _ B H) as [F|[-> F]]; [left; right; exact F|].
      right. exists i0. split; auto. right. exact F.
    - destruct H as (m & H & Bm). destruct (leads_Fields _ _ _ _ _ B H) as [F|[-> F]].
      + right. exists m. split; auto. right. exact F.
      + right. exists i0. split; [right; exact F|]. rewrite (blanks_twice _ _ _ B Bm). exact B.
  Qed.
  Lemma sound_unionCase : sound unionCase CaseLabel.
  Proof. unfold unionCase, CaseLabel, as_. sound. Qed.
  Hint Resolve sound_unionCase : sound.

  Lemma sound_unionMember : sound (unionMember sd) (trail (Case SD)).
  Proof.
    unfold unionMember. eapply sound_sub with
      (R := gap ~~ c <~ CaseLabel ;; gap ~~ tok ":" ~~ gap ~~ ms <~ BodyR ;; gap ~~ empty (UCase c ms));
      [pose proof sound_unionBody; sound|].
    intros a ss i r (u1 & s1 & t1 & m1 & G1 & (c & s2 & t2 & m2 & G2 & (u3 & s3 & t3 & m3 & G3 &
      (u4 & s4 & t4 & m4 & G4 & (u5 & s5 & t5 & m5 & [-> G5] & (ms & s6 & t6 & m6 & G6 & (u7 & s7 & t7 & m7 & [-> G7] &
      (-> & -> & ->) & ->) & ->) & ->) & ->) & ->) & ->) & ->).
    assert (K : exists m8, Body SD ms s6 m4 m8 /\ blanks m8 m7).
    { destruct (G6 _ G5) as [G|(m8 & G & B)]; eauto. exists m8. split; auto.
      rewrite (blanks_twice _ _ _ B G7). exact B. }
    destruct K as (m8 & K & B). exists m8. split; auto.
    exists u1, s1, (s2 ++ s3 ++ s4 ++ s6 ++ []), m1. split; auto. split; [|cbn; rewrite ?app_nil_r; reflexivity].
    exists c, s2, (s3 ++ s4 ++ s6 ++ []), m2. split; auto. split; auto.
    exists u3, s3, (s4 ++ s6 ++ []), m3. split; auto. split; auto.
    exists u4, s4, (s6 ++ []), m4. split; auto. split; auto.
    exists ms, s6, [], m8. split; auto. repeat split.
  Qed.
  Hint Resolve sound_unionMember : sound.

  Lemma leads_Case : leads (Case SD).
  Proof. apply leads_gap. Qed.

  (** Repetition between blanks. *)
  Lemma sound_spaced : forall A B (p : P A) R (k : list A -> P B) K, leads R -> sound p (trail R) ->
    (forall l, sound (k l) (K l)) ->
    sound (sk ;;; l <-- many p ;; sk ;;; k l) (l <~ star R ;; gap ~~ K l).
  Proof.
    intros A B p R k K L H Hk. eapply sound_sub with (R := gap ~~ l <~ star (trail R) ;; gap ~~ K l); [sound|].
    intros a ss i r (u1 & s1 & t1 & m1 & [-> G1] & (l & s2 & t2 & m2 & G2 & (u3 & s3 & t3 & m3 & [-> G3] & G4 & ->) & ->) & ->).
    destruct (star_trail _ _ L _ _ _ _ G2 _ G1) as (r0 & S & B0).
    exists l, s2, t3, r0. split; auto. split; auto. exists tt, [], t3, m2. split; [split; auto|].
    rewrite (blanks_twice _ _ _ B0 G3) in G4. auto.
  Qed.

  Lemma sound_unionLength : sound unionLength (tok "with" ~~ gap1 ~~ tok "length" ~~ gap1 ~~ Len).
  Proof. unfold unionLength. sound. Qed.
  Hint Resolve sound_unionLength : sound.

  Lemma sound_smUnion : sound (smUnion sd) (Union SD).
  Proof.
    unfold smUnion, Union.
    repeat (apply sound_then; [solve [sound]|intros]).
    apply sound_spaced; [apply leads_Case|apply sound_unionMember|]. intros. sound.
  Qed.
  Hint Resolve sound_smUnion : sound.

  Lemma sound_structMember : sound (structMember sd) (ended (Member SD)).
  Proof.
    unfold structMember. eapply sound_sub; [apply sound_ended with
      (R := either (either (FixedArray SD) (VarArray SD)) (either IntField (either Position (either String_ (either (StructField SD) (Union SD)))))); sound|].
    unfold ended. apply follow_next. intros _. apply follow_sub; [|intros; apply sub_refl].
    intros a ss i r. unfold Member, Field, either. tauto.
  Qed.
  Lemma sound_structEnding : sound (structEnding sd) (ended (Ending SD)).
  Proof. unfold structEnding. apply sound_ended. unfold Ending, as_. sound. Qed.
  Hint Resolve sound_structMember sound_structEnding : sound.

  Lemma sound_structBody : sound (structBody sd) (Struct SD).
  Proof.
    unfold structBody, Struct.
    eapply sound_sub with (R := n <~ StructName ;; c <~ Contexts ;; gap ~~ tok "{" ~~ ms <~ star (ended (Member SD)) ;;
      gap ~~ e <~ maybe (ended (Ending SD)) ;; gap ~~ tok "}" ~~
      empty (mkStruct n c (Some (ms ++ match e with Some m => [m] | None => [] end)))); [sound|].
    apply follow_next; intros n. apply follow_next; intros c. apply follow_next; intros _. apply follow_next; intros _.
    apply follow_next; intros ms.
    intros a ss i r (u & s1 & s2 & m & [-> B] & (e & s3 & s4 & m1 & H & K & ->) & ->).
    destruct e as [e|]; cbn [maybe] in H.
    - exists (Some e), s3, s4, m1. split; auto. cbn [maybe]. eapply leads_ended; eauto.
    - destruct H as [-> ->]. exists None, [], s4, i. split; [split; auto|]. split; auto.
      eapply leads_gap; eauto.
  Qed.
End Members.

Lemma sound_structDecl : forall n, sound (structDecl n) (StructN n).
Proof.
  induction n as [|n IH]; cbn [structDecl StructN].
  - intros d. exists []. rewrite app_nil_r. reflexivity.
  - apply sound_structBody. exact IH.
Qed.
Lemma sound_StructDecl : forall n, sound (structDecl n) StructDecl.
Proof. intros n. eapply sound_sub; [apply sound_structDecl|]. intros a ss i r H. exists n. exact H. Qed.
#[export] Hint Resolve sound_StructDecl : sound.

(** ** Declarations *)
Definition declOf (d : decl) : declaration :=
  match d with
  | DConst c => Const_ c
  | DCtx c => Context_ c
  | DStruct s => Struct_ s
  | DPragma p => Pragma_ p
  end.
(** A production seen through [declOf]. *)
Definition via (R : prod declaration) : prod decl := fun d ss i r => R (declOf d) ss i r.

Lemma via_empty : forall d, sub (empty d) (via (empty (declOf d))).
Proof. intros d a ss i r (-> & -> & ->). repeat split. Qed.
Lemma via_follow : forall A (p : prod A) (k : A -> prod decl) (h : A -> prod declaration),
  (forall x, sub (k x) (via (h x))) -> sub (follow p k) (via (follow p h)).
Proof.
  unfold sub. intros A p k h H a ss i r (x & s1 & s2 & m & H1 & H2 & ->). exists x, s1, s2, m.
  split; auto. split; auto. apply H. exact H2.
Qed.
Ltac via := repeat (apply via_follow; intros ?); first [apply via_empty | idtac].

(** Perhaps followed by blanks. *)
Definition loose {A} (R : prod A) : prod A := either R (trail R).
Lemma loose_follow : forall A B (p : prod A) (k h : A -> prod B),
  (forall x, sub (k x) (loose (h x))) -> sub (follow p k) (loose (follow p h)).
Proof.
  unfold sub. intros A B p k h H a ss i r (x & s1 & s2 & m & H1 & H2 & ->).
  destruct (H _ _ _ _ _ H2) as [G|(r0 & G & Br)].
  - left. exists x, s1, s2, m. auto.
  - right. exists r0. split; auto. exists x, s1, s2, m. auto.
Qed.
Lemma loose_sub : forall A (p q : prod A), sub p q -> sub p (loose q).
Proof. intros A p q H. apply sub_left. exact H. Qed.

(** The optional semicolon. *)
Lemma semicolon : forall A (x : A), sub (gap ~~ maybe (tok ";") ~~ empty x)
  (loose (maybe (gap ~~ tok ";") ~~ empty x)).
Proof.
  intros A x a ss i r (u & s1 & s2 & m & [-> B] & (e & s3 & s4 & m1 & H & (-> & -> & ->) & ->) & ->).
  destruct e as [e|]; cbn [maybe] in H.
  - left. exists (Some e), s3, [], m1. split; [|repeat split]. cbn [maybe]. exists tt, [], s3, m.
    split; [split; auto|]. auto.
  - right. destruct H as [-> ->]. exists i. split; auto. exists None, [], [], i. repeat split.
Qed.

Lemma sound_constP : sound constP (via ConstDecl).
Proof.
  eapply sound_sub with
    (R := tok "const" ~~ gap1 ~~ n <~ ConstIdentifier ;; gap ~~ tok "=" ~~ gap ~~ v <~ Literal ;; gap ~~ tok ";" ~~
          empty (DConst (mkConst n v))); [unfold constP; sound|]. via.
Qed.
Lemma sound_ctxMember : sound ctxMember (trail ContextField).
Proof.
  unfold ctxMember. eapply sound_sub with
    (R := gap ~~ t <~ IntType ;; gap1 ~~ n <~ Identifier ;; gap ~~ tok ";" ~~ gap ~~ empty (n, TInt t None)); [sound|].
  intros a ss i r (u1 & s1 & t1 & m1 & G1 & (t & s2 & t2 & m2 & G2 & (u3 & s3 & t3 & m3 & G3 &
      (n & s4 & t4 & m4 & G4 & (u5 & s5 & t5 & m5 & G5 & (u6 & s6 & t6 & m6 & G6 & (u7 & s7 & t7 & m7 & [-> G7] &
      (-> & -> & ->) & ->) & ->) & ->) & ->) & ->) & ->) & ->).
  exists m6. split; auto. exists u1, s1, (((s2 ++ s3 ++ s4 ++ [])) ++ (s5 ++ s6 ++ [])), m1.
  split; auto. split; [|rewrite !app_nil_r, !app_assoc; reflexivity].
  exists (n, TInt t None), (s2 ++ s3 ++ s4 ++ []), (s5 ++ s6 ++ []), m4. split.
  - exists t, s2, (s3 ++ s4 ++ []), m2. split; auto. split; auto. exists u3, s3, (s4 ++ []), m3. split; auto. split; auto.
    exists n, s4, [], m4. split; auto. repeat split.
  - split; auto. exists u5, s5, (s6 ++ []), m5. split; auto. split; auto. exists u6, s6, [], m6. split; auto. repeat split.
Qed.
Lemma sound_ctxP : sound ctxP (via (loose ContextDecl)).
Proof.
  eapply sound_sub with
    (R := tok "context" ~~ gap1 ~~ n <~ Identifier ;; gap1 ~~ tok "{" ~~ fs <~ star ContextField ;; gap ~~ tok "}" ~~
          gap ~~ maybe (tok ";") ~~ empty (DCtx (mkCtx n fs))).
  - unfold ctxP. repeat (apply sound_then; [solve [sound]|intros ?]).
    apply sound_spaced; [apply leads_gap|apply sound_ctxMember|]. intros. sound.
  - eapply sub_trans; [via; apply via_follow; intros; apply via_empty|].
    intros a ss i r H. unfold via in *. revert H. generalize (declOf a). intros b H.
    revert H. apply (fun H => H b ss i r : _).
    unfold ContextDecl. do 7 (apply loose_follow; intros ?).
    apply loose_follow; intros ?. apply semicolon.
Qed.
Lemma sub_via : forall (p q : prod declaration), sub p q -> sub (via p) (via q).
Proof. intros p q H a ss i r X. apply H. exact X. Qed.
Lemma sound_structP : forall n, sound (structP n) (via (loose StructDef)).
Proof.
  intros n. eapply sound_sub with
    (R := s <~ StructDecl ;; gap ~~ maybe (tok ";") ~~ empty (DStruct s)); [unfold structP; sound|].
  eapply sub_trans; [via; apply via_follow; intros; apply via_empty|].
  apply sub_via. unfold StructDef. apply loose_follow; intros s. apply semicolon.
Qed.
Lemma sound_externP : sound externP (via ExternDecl).
Proof.
  eapply sound_sub with
    (R := tok "extern" ~~ gap1 ~~ n <~ StructName ;; c <~ Contexts ;; gap ~~ tok ";" ~~
          empty (DStruct (mkStruct n c None))); [unfold externP; sound|]. via.
Qed.
Lemma sound_pragmaP : sound pragmaP (via PragmaDecl).
Proof.
  eapply sound_sub with
    (R := tok "trunnel" ~~ gap1 ~~ n <~ Identifier ;; gap1 ~~ l <~ listOf Identifier ;; gap ~~ tok ";" ~~
          empty (DPragma (mkPragma n l))); [unfold pragmaP; sound|]. via.
Qed.
#[export] Hint Resolve sound_constP sound_ctxP sound_structP sound_externP sound_pragmaP : sound.

Lemma sound_declP : forall n, sound (declP n) (trail (via Decl)).
Proof.
  intros n. unfold declP. eapply sound_sub with
    (R := gap ~~ x <~ either (via ConstDecl) (either (via (loose ContextDecl)) (either (via (loose StructDef))
                        (either (via ExternDecl) (via PragmaDecl)))) ;; gap ~~ empty x); [sound|].
  intros a ss i r (u1 & s1 & t1 & m1 & G1 & (x & s2 & t2 & m2 & G2 & (u3 & s3 & t3 & m3 & [-> G3] & (-> & -> & ->) & ->) & ->) & ->).
  assert (K : exists m4, (either (either (either (either ConstDecl ContextDecl) StructDef) ExternDecl) PragmaDecl)
                (declOf x) s2 m1 m4 /\ blanks m4 m3).
  { unfold either. destruct G2 as [G|[[G|(m4 & G & B)]|[[G|(m4 & G & B)]|[G|G]]]].
    3,5: exists m4; split; [tauto|]; rewrite (blanks_twice _ _ _ B G3); exact B.
    all: exists m2; split; [tauto|exact G3]. }
  destruct K as (m4 & K & B). exists m4. split; auto. exists u1, s1, s2, m1. rewrite !app_nil_r. auto.
Qed.
Lemma leads_Decl : leads (via Decl).
Proof. intros i m a ss r B H. unfold via in *. eapply leads_gap; eauto. Qed.

Lemma star_via : forall l ss i r, star (via Decl) l ss i r -> star Decl (map declOf l) ss i r.
Proof. induction 1; cbn [map]; [apply star_nil|eapply star_cons; eauto]. Qed.
Lemma fileOf_declOf : forall l inline, PegDescent.fileOf l inline = SyntaxSpec.fileOf (map declOf l) inline.
Proof.
  intros l inline. unfold PegDescent.fileOf, SyntaxSpec.fileOf, pick. f_equal; [| |f_equal|].
  all: induction l as [|[] l IH]; cbn [map flat_map declOf app]; congruence.
Qed.

Theorem fileP_sound : forall n cs f d, fileP n (mkD cs [] []) = Done f d -> derrs d = [] ->
  exists ds inline, File_ ds inline cs [] /\ f = SyntaxSpec.fileOf ds inline.
Proof.
  intros n cs f d H He.
  pose proof (sound_spaced _ _ (declP n) (via Decl) (fun l => ret l) (fun l => empty l) leads_Decl (sound_declP n)
                (fun l => sound_ret _ l) (mkD cs [] [])) as S.
  unfold fileP in H.
  apply andThen_done in H as (u1 & d1 & E1 & H). apply andThen_done in H as (l & d2 & E2 & H).
  apply andThen_done in H as (u3 & d3 & E3 & H). apply andThen_done in H as (u4 & d4 & E4 & H).
  rewrite (andThen_eq _ _ _ _ _ _ _ E1), (andThen_eq _ _ _ _ _ _ _ E2), (andThen_eq _ _ _ _ _ _ _ E3) in S.
  cbn in S. destruct S as (ss & x & L & E & S). cbn in H. inversion H; subst. clear H.
  unfold notP, any in E4. destruct (drest d3) eqn:R3; [|discriminate]. inversion E4; subst. cbn [dling derrs drest] in *.
  specialize (S He). exists (map declOf l), (dling d3).
  split.
  - destruct S as (l0 & s1 & s2 & m & S & G & X0).
    destruct G as (u & s3 & s4 & m1 & [-> B] & (-> & -> & X) & ->). cbn in X. subst m1. rewrite app_nil_r in X0. rewrite X0.
    exists (map declOf l0), s1, [], m. split; [apply star_via; exact S|]. split; [|rewrite app_nil_r; reflexivity].
    exists tt, [], [], []. split; [split; auto|]. repeat split.
  - apply fileOf_declOf.
Qed.
