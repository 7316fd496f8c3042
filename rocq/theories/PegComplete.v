(** Whatever is derivable in the grammar of [SyntaxSpec] is accepted by the
    functions of [PegDescent], with the derived value. *)
From Coq Require Import ZArith String Ascii List Bool Lia ZifyBool ZifyNat.
From Verif Require Import Base Ast PegModel PegGrammar PegEngine PegRunes PegDescent PegConsume PegLexical SyntaxSpec PegSound.
Import ListNotations.
Open Scope string_scope.
Open Scope list_scope.
Open Scope Z_scope.

(** ** The next character *)
Definition head (i : list Z) : Z := hd (-1) i.
(** The first character after blanks. *)
Definition ahead (i : list Z) (c : Z) : Prop := exists m, blanks i m /\ head m = c.

Lemma ahead_exists : forall i, exists c, ahead i c.
Proof. intros i. destruct (blanks_total i) as [m B]. exists (head m), m. auto. Qed.
Lemma ahead_at : forall i m, blanks i m -> ahead i (head m).
Proof. intros i m B. exists m. auto. Qed.
Lemma ahead_fun : forall i m c, ahead i c -> blanks i m -> head m = c.
Proof. intros i m c (m' & B & H) B'. rewrite (blanks_det _ _ _ B' B). exact H. Qed.
Lemma ahead_after : forall i m c, blanks i m -> ahead i c -> ahead m c.
Proof. intros i m c B A. exists m. split; [eapply blanks_again; eauto|eapply ahead_fun; eauto]. Qed.
Lemma ahead_before : forall i m c, blanks i m -> ahead m c -> ahead i c.
Proof. intros i m c B (m' & B' & H). exists m. split; auto. rewrite <- (blanks_twice _ _ _ B B'). exact H. Qed.
Lemma ahead_head : forall i c, ahead i c -> head i = c \/ In (head i) [32; 9; 13; 10; 47].
Proof.
  intros i c (m & B & H). destruct B as [r N | i m r B _]; auto. right.
  destruct B as [x k X | body k X | body k X Y]; cbn in *; lia.
Qed.
Lemma gap1_blanks : forall u ss i m, gap1 u ss i m -> ss = [] /\ blanks i m.
Proof. intros u ss i m (-> & k & B & Bs). split; auto. eapply blanks_more; eauto. Qed.
Lemma sk_at : forall i m, blanks i m -> gives sk i tt [] m.
Proof. intros i m B. apply sk_gives. split; auto. Qed.
Lemma sk1_either : forall i m, blanks i m -> fails sk1 i \/ gives sk1 i tt [] m.
Proof.
  intros i m B. destruct (skip1_or i) as [[k K]|[N F]].
  - right. apply sk1_gives. split; auto. destruct B as [r N | i k' m K' B]; [exfalso; eapply N; eauto|].
    exists k'. auto.
  - left. apply sk1_fails; auto.
Qed.
Lemma head_app : forall c (w r : list Z), head ((c :: w) ++ r) = c.
Proof. reflexivity. Qed.
Lemma no_blank : forall i, ~ In (head i) [32; 9; 13; 10; 47] -> blanks i i.
Proof.
  intros i H. apply blanks_end. intros r B. apply H. destruct B as [x k X | body k X | body k X Y]; cbn in *; lia.
Qed.

Lemma gives_follow : forall A B (p : P A) (k : A -> P B) (R : prod A) (K : A -> prod B) b ss i r,
  follow R K b ss i r ->
  (forall a s1 s2 m, R a s1 i m -> K a b s2 m r -> gives p i a s1 m /\ gives (k a) m b s2 r) ->
  gives (andThen p k) i b ss r.
Proof.
  intros A B p k R K b ss i r (a & s1 & s2 & m & H1 & H2 & ->) H.
  destruct (H _ _ _ _ H1 H2). eapply gives_then; eauto.
Qed.
Lemma gives_map : forall A B (p : P A) (f : A -> B) (R : prod A) b ss i r, as_ f R b ss i r ->
  (forall a s, R a s i r -> gives p i a s r) -> gives (x <-- p ;; ret (f x)) i b ss r.
Proof.
  intros A B p f R b ss i r H G. eapply gives_follow; [exact H|]. intros a s1 s2 m H1 (-> & -> & ->).
  split; auto. apply gives_ret.
Qed.
Lemma gives_end : forall A (a b : A) ss i r, empty a b ss i r -> gives (ret a) i b ss r.
Proof. intros A a b ss i r (-> & -> & ->). apply gives_ret. Qed.
Lemma gives_tok : forall w u ss i r, tok w u ss i r -> gives (lit w) i u ss r.
Proof. intros w [] ss i r [-> ->]. apply gives_lit. Qed.

(** Goes through one production; the third argument proves its first part. *)
Ltac go H := eapply gives_follow; [exact H|]; clear H; intros ? ? ? ? ? H; split.
Ltac atoms := first [apply gives_end; eassumption | apply gives_tok; eassumption | apply ident_gives; eassumption
  | apply cident_gives; eassumption | apply sk_gives; eassumption | apply sk1_gives; eassumption | apply intLit_gives; eassumption].

(** ** Numbers, references and lists *)
Lemma Literal_head : forall v ss i r, Literal v ss i r -> digit10 (head i) = true.
Proof.
  intros v ss i r (_ & _ & [(ds & m & -> & _) | [(ds & m & -> & _) | [(ds & _ & (N & F & _ & ->) & _) | (-> & _)]]]);
    try reflexivity.
  destruct ds as [|c ds]; [congruence|]. cbn in F |- *. apply andb_prop in F. apply F.
Qed.
Lemma ConstIdentifier_head : forall v ss i r, ConstIdentifier v ss i r -> upper (head i) = true.
Proof. intros v ss i r (_ & c & cs & F & _ & _ & -> & _). exact F. Qed.
Lemma Identifier_head : forall v ss i r, Identifier v ss i r -> first_ (head i) = true.
Proof. intros v ss i r (_ & c & cs & F & _ & _ & -> & _). exact F. Qed.
Lemma stops_head : forall class i, class (head i) = false -> stops class i.
Proof. intros class [|c i] H; [exact I|exact H]. Qed.
Ltac chars := unfold later_, upperLater, first_, upper, lower, digit10, digit8, between in *; lia.

Lemma C_Int : forall a ss i r, Int a ss i r -> gives integerP i a ss r.
Proof.
  intros a ss i r [H|H]; unfold integerP.
  - apply gives_left. eapply gives_map; [exact H|]. intros. atoms.
  - apply gives_right; [|eapply gives_map; [exact H|]; intros; atoms].
    destruct H as (v & s1 & s2 & m & L & _). apply Literal_head in L.
    apply fails_then, cident_fails, stops_head. chars.
Qed.
Lemma Int_head : forall a ss i r, Int a ss i r -> upper (head i) || digit10 (head i) = true.
Proof.
  intros a ss i r [(v & s1 & s2 & m & L & _)|(v & s1 & s2 & m & L & _)].
  - apply ConstIdentifier_head in L. rewrite L. reflexivity.
  - apply Literal_head in L. rewrite L. apply orb_true_r.
Qed.
Lemma F_integer : forall i, upper (head i) || digit10 (head i) = false -> fails integerP i.
Proof.
  intros i H. apply orb_false_elim in H. destruct H as [H1 H2]. unfold integerP. apply fails_or; apply fails_then.
  - apply cident_fails, stops_head; auto.
  - apply intLit_fails, stops_head; auto.
Qed.

Lemma C_Ref : forall a ss i r, Ref a ss i r -> head r <> 46 -> gives idrefP i a ss r.
Proof.
  intros a ss i r [H|H] Hr; unfold idrefP.
  - destruct H as (s & s1 & s2 & m & H1 & (u & s3 & s4 & m1 & H2 & H3 & ->) & ->). rewrite app_assoc.
    apply gives_then with (a := Some s) (m := m1).
    + apply gives_some. eapply gives_then; [apply ident_gives; exact H1|]. rewrite <- (app_nil_r s3).
      eapply gives_then; [apply gives_tok; exact H2|]. apply gives_ret.
    + go H3; [atoms|]. atoms.
  - apply gives_seq with (a := None) (m := i).
    + apply gives_none. destruct H as (n & s1 & s2 & m & H1 & (_ & _ & E) & _). subst m. pose proof H1 as (-> & _).
      eapply fails_after; [apply ident_gives; exact H1|].
      apply fails_then, fails_lit_head. exact Hr.
    + eapply gives_map; [exact H|]. intros. atoms.
Qed.

Lemma C_listOf : forall A (p : P A) (R : prod A) (Fol : list Z -> Prop), eatsSome p ->
  (forall a ss i r, R a ss i r -> Fol r -> gives p i a ss r) -> (forall r, ahead r 44 -> Fol r) ->
  forall l ss i r, listOf R l ss i r -> Fol r -> (forall c, ahead r c -> c <> 44) ->
  gives (x <-- p ;; xs <-- many (commaThen p) ;; ret (x :: xs)) i l ss r.
Proof.
  intros A p R Fol E G C l ss i r H Hf Hn. unfold listOf in H.
  assert (S : forall l ss m, star (gap ~~ tok "," ~~ gap ~~ R) l ss m r ->
              gives (many (commaThen p)) m l ss r /\ Fol m).
  { clear H. intros l0 s0 m0 H. induction H as [m | a l1 t1 t2 m1 m2 r H1 H2 IH].
    - split; auto. apply gives_many_nil; [eats|]. unfold commaThen. destruct (blanks_total m) as [k B].
      eapply fails_after; [apply sk_at; exact B|]. apply fails_then, fails_lit_head. apply (Hn (head k)).
      apply ahead_at. exact B.
    - destruct (IH Hf Hn) as [IH1 IH2]. split.
      + eapply gives_many_cons; [eats| |exact IH1]. unfold commaThen.
        go H1; [atoms|]. go H1; [atoms|]. go H1; [atoms|]. apply G; auto.
      + apply C. destruct H1 as (u & s1 & s2 & m & (_ & B) & (u1 & s3 & s4 & m' & (_ & ->) & _) & _).
        eexists. split; [exact B|]. reflexivity. }
  eapply gives_follow; [exact H|]. intros a s1 s2 m H1 H2. cbv beta in H2.
  assert (Fm : Fol m).
  { destruct H2 as (xs & t1 & t2 & m1 & X & (_ & _ & Em) & _). subst m1. apply (S _ _ _ X). }
  split; [auto|]. go H2; [destruct H2 as (_ & _ & <-); apply S; assumption|]. atoms.
Qed.

Definition noDot (r : list Z) : Prop := forall c, ahead r c -> c <> 46.
Lemma C_Range : forall a ss i r, Range a ss i r -> noDot r -> gives rangeP i a ss r.
Proof.
  intros a ss i r [H|H] Hn; unfold rangeP.
  - eapply gives_follow; [exact H|]. intros lo s1 s2 m H1 (-> & -> & E). subst m.
    split; [apply C_Int; auto|]. eapply gives_seq; [apply gives_none|apply gives_ret].
    destruct (blanks_total r) as [k B]. eapply fails_after; [apply sk_at; exact B|].
    apply fails_then, fails_lit_head. apply (Hn (head k)). apply ahead_at. exact B.
  - go H; [apply C_Int; auto|].
    destruct H as (u & t1 & t2 & m1 & G1 & (u2 & t3 & t4 & m2 & G2 & (u3 & t5 & t6 & m3 & G3 & (hi & t7 & t8 & m4 & G4 & (-> & -> & E) & ->) & ->) & ->) & ->).
    subst m4. rewrite !app_assoc. eapply gives_then; [|apply gives_ret]. apply gives_some. rewrite <- !app_assoc.
    eapply gives_then; [apply sk_gives; exact G1|]. eapply gives_then; [atoms|]. eapply gives_then; [atoms|]. apply C_Int; auto.
Qed.
Lemma C_Ranges : forall l ss i r, listOf Range l ss i r -> (forall c, ahead r c -> c <> 46 /\ c <> 44) ->
  gives intListP i l ss r.
Proof.
  intros l ss i r H Hn. unfold intListP. eapply C_listOf with (Fol := noDot); [eats|apply C_Range| |exact H| |].
  - intros r' A c A' ->. destruct A as (m & B & X). pose proof (ahead_fun _ _ _ A' B). lia.
  - intros c A. apply Hn. exact A.
  - intros c A. apply Hn. exact A.
Qed.
Lemma C_Identifiers : forall l ss i r, listOf Identifier l ss i r -> (forall c, ahead r c -> c <> 44) ->
  gives identList i l ss r.
Proof.
  intros l ss i r H Hn. unfold identList. eapply C_listOf with (Fol := fun _ => True); [eats| |auto|exact H|auto|exact Hn].
  intros. atoms.
Qed.
(** What comes after a gap and a token. *)
Lemma ahead_tok : forall A c w u ss (K : prod A) a s m r m', gap u ss m m' -> (tok (String c w) ~~ K) a s m' r ->
  forall x, ahead m x -> x = Z.of_N (N_of_ascii c).
Proof.
  intros A c w u ss K a s m r m' (_ & B) (u1 & s1 & s2 & m1 & (_ & ->) & _) x X.
  rewrite <- (ahead_fun _ _ _ X B). reflexivity.
Qed.

Lemma C_Constraint : forall l ss i r, Constraint_ l ss i r -> gives constraintP i l ss r.
Proof.
  intros l ss i r H. unfold constraintP. unfold Constraint_ in H.
  go H; [atoms|]. go H; [atoms|]. go H; [atoms|]. go H; [atoms|].
  go H.
  - apply C_Ranges; auto. destruct H as (v & y1 & y2 & k1 & G1 & G2 & _). intros c X.
    rewrite (ahead_tok _ _ _ _ _ _ _ _ _ _ _ G1 G2 c X). cbn. lia.
  - go H; [atoms|]. go H; [atoms|]. atoms.
Qed.
Lemma Size_lit : forall A w (v n : A) ss i r, as_ (fun _ => v) (tok w) n ss i r -> gives (lit w ;;; ret v) i n ss r.
Proof. intros A w v n ss i r H. go H; [atoms|]. atoms. Qed.
Lemma as_tok_head : forall A c w (f : unit -> A) n ss i r, as_ f (tok (String c w)) n ss i r -> head i = Z.of_N (N_of_ascii c).
Proof. intros A c w f n ss i r (u & s1 & s2 & m & (_ & ->) & _). reflexivity. Qed.
Ltac heads := apply fails_then, fails_lit_head; unfold head in *; cbn in *; lia.
Lemma C_Size : forall n ss i r, Size n ss i r -> gives sizeP i n ss r.
Proof.
  intros n ss i r [[[H|H]|H]|H]; unfold sizeP; pose proof (as_tok_head _ _ _ _ _ _ _ _ H) as Hh.
  - apply gives_left. apply Size_lit. exact H.
  - apply gives_right; [heads|]. apply gives_left. apply Size_lit. exact H.
  - do 2 (apply gives_right; [heads|]). apply gives_left. apply Size_lit. exact H.
  - do 3 (apply gives_right; [heads|]). apply Size_lit. exact H.
Qed.
Lemma C_IntType : forall n ss i r, IntType n ss i r -> gives intTypeP i n ss r.
Proof. intros n ss i r H. unfold intTypeP. go H; [atoms|]. apply C_Size; auto. Qed.
Lemma C_Len : forall a ss i r, Len a ss i r -> head r <> 46 -> gives lengthP i a ss r.
Proof.
  intros a ss i r [H|H] Hr; unfold lengthP.
  - apply gives_left. unfold leftoverP.
    destruct H as (u & s1 & s2 & m & G1 & (x & s3 & s4 & m1 & G2 & (-> & -> & E) & ->) & ->). subst m1.
    rewrite app_assoc. eapply gives_then; [|apply gives_ret]. eapply gives_then; [atoms|]. apply C_Int; auto.
  - apply gives_right.
    + apply fails_then, fails_then, fails_lit_head.
      destruct H as (x & s3 & s4 & m1 & G & _).
      assert (first_ (head i) = true).
      { destruct G as [(n & s1 & s2 & m & G & _)|(n & s1 & s2 & m & G & _)]; eapply Identifier_head; eauto. }
      unfold head in *. cbn. chars.
    + eapply gives_map; [exact H|]. intros. apply C_Ref; auto.
Qed.
Lemma C_StructName : forall n ss i r, StructName n ss i r -> gives structIdent i n ss r.
Proof. intros n ss i r H. unfold structIdent. go H; [atoms|]. go H; [atoms|]. atoms. Qed.
Lemma StructName_head : forall n ss i r, StructName n ss i r -> head i = 115.
Proof. intros n ss i r (u & s1 & s2 & m & (_ & ->) & _). reflexivity. Qed.
Lemma C_Contexts : forall a ss i r, Contexts a ss i r -> (forall c, ahead r c -> c = 123 \/ c = 59) ->
  gives optContexts i a ss r.
Proof.
  intros a ss i r [H|H] Hn; unfold optContexts, contextRefs.
  - rewrite <- (app_nil_r ss). eapply gives_then with (a := Some a); [|apply gives_ret]. apply gives_some.
    go H; [atoms|]. go H; [atoms|]. go H; [atoms|]. go H; [atoms|]. go H; [atoms|].
    apply C_Identifiers; auto. intros c X. specialize (Hn c X). lia.
  - destruct H as (-> & -> & E). subst r. eapply gives_seq with (a := None); [|apply gives_ret]. apply gives_none.
    destruct (blanks_total i) as [m B]. specialize (Hn _ (ahead_at _ _ B)).
    destruct (sk1_either _ _ B) as [F|G]; [apply fails_then; exact F|].
    eapply fails_after; [exact G|]. apply fails_then, fails_lit_head. unfold head in *. cbn. lia.
Qed.

(** A constant at the start of a name. *)
Lemma points_named : forall l, forallb later_ l = true -> points (named l) = l.
Proof.
  induction l as [|x l IH]; intros H; auto. cbn [forallb] in H. apply andb_prop in H. destruct H as [Hx H].
  unfold points, named in *. cbn [map list_ascii_of_string string_of_list_ascii].
  rewrite IH by auto. f_equal. apply byte_octet'. chars.
Qed.
Lemma const_prefix : forall n ss i r, Identifier n ss i r ->
  fails cident i \/
  (exists w k, gives cident i w [] k /\ ((k = r /\ constantName n) \/ later_ (head k) = true)).
Proof.
  intros n ss i r (-> & c & cs & F & Fs & St & -> & ->).
  destruct (upper c) eqn:U; [|left; apply cident_fails; exact U]. right.
  destruct (span upperLater cs) as (c1 & k1 & -> & F1 & S1). destruct k1 as [|x k1].
  - rewrite app_nil_r in *. exists (named (c :: c1)), r. split.
    + apply cident_gives. split; auto. exists c, c1. split; auto. split; auto. split; auto.
      destruct r as [|y r]; [exact I|]. cbn in St |- *. chars.
    + left. split; auto. assert (P : points (named (c :: c1)) = c :: c1).
      { apply points_named. cbn [forallb]. rewrite Fs. unfold later_. rewrite F. reflexivity. }
      split; rewrite P; cbn [forallb hd]; [rewrite F1; chars|chars].
  - exists (named (c :: c1)), ((x :: k1) ++ r). split.
    + apply cident_gives. split; auto. exists c, c1. split; auto. split; auto. split; [exact S1|].
      rewrite <- app_assoc. auto.
    + right. rewrite forallb_app in Fs. apply andb_prop in Fs. destruct Fs as [_ Fs]. cbn in Fs |- *.
      apply andb_prop in Fs. apply Fs.
Qed.

Definition nameThen (m : list Z) (c : Z) : Prop :=
  exists m2 n m3, gap1 tt [] m m2 /\ Identifier n [] m2 m3 /\ ahead m3 c.

Lemma F_intType : forall i, head i <> 117 -> fails intTypeP i.
Proof. intros i H. unfold intTypeP. apply fails_then, fails_lit_head. exact H. Qed.
Lemma IntType_head : forall t ss i r, IntType t ss i r -> head i = 117.
Proof. intros t ss i r (u & s1 & s2 & m & (_ & ->) & _). reflexivity. Qed.

Section Members.
  Variables (sd : P struct) (SD : prod struct).
  Hypothesis Heats : eatsSome sd.
  Hypothesis Hgives : forall s ss i r, SD s ss i r -> gives sd i s ss r.
  Hypothesis Hhead : forall s ss i r, SD s ss i r -> head i = 115.
  Hypothesis Hfirst : forall i, head i <> 115 -> fails sd i.
  Hypothesis Href : forall n ss i m c, StructName n ss i m -> nameThen m c -> c = 59 \/ c = 91 -> fails sd i.

  Lemma C_StructRef : forall t ss i m c, StructRef SD t ss i m -> nameThen m c -> c = 59 \/ c = 91 ->
    gives (structRef sd) i t ss m.
  Proof.
    intros t ss i m c [H|H] N Hc; unfold structRef.
    - apply gives_left. destruct H as (s & s1 & s2 & m1 & (inner & H & ->) & (-> & -> & E) & ->). subst m1.
      rewrite app_nil_r. eapply gives_then; [apply Hgives; exact H|].
      intros l e. unfold andThen, linger, ret. cbn. reflexivity.
    - apply gives_right.
      + destruct H as (n & s1 & s2 & m1 & H & (_ & _ & E) & _). subst m1. apply fails_then. eapply Href; eauto.
      + eapply gives_map; [exact H|]. intros. apply C_StructName. assumption.
  Qed.
  Lemma StructRef_head : forall t ss i m, StructRef SD t ss i m -> head i = 115.
  Proof.
    intros t ss i m [(s & s1 & s2 & m1 & (inner & H & _) & _)|(n & s1 & s2 & m1 & H & _)].
    - eapply Hhead; eauto.
    - eapply StructName_head; eauto.
  Qed.
  Lemma F_structRef : forall i, head i <> 115 -> fails (structRef sd) i.
  Proof.
    intros i H. unfold structRef, structIdent. apply fails_or; apply fails_then; [auto|].
    apply fails_then, fails_lit_head. exact H.
  Qed.
  Lemma C_ArrayBase : forall t ss i m c, ArrayBase SD t ss i m -> nameThen m c -> c = 59 \/ c = 91 ->
    gives (arrayBase sd) i t ss m.
  Proof.
    intros t ss i m c [[H|H]|H] N Hc; unfold arrayBase.
    - apply gives_left. eapply gives_map; [exact H|]. intros. apply C_IntType. assumption.
    - pose proof (as_tok_head _ _ _ _ _ _ _ _ H) as Hh. cbn in Hh.
      apply gives_right; [apply fails_then, F_intType; lia|]. apply gives_left. apply Size_lit. exact H.
    - pose proof (StructRef_head _ _ _ _ H) as Hh.
      apply gives_right; [apply fails_then, F_intType; lia|]. apply gives_right; [heads|].
      eapply C_StructRef; eauto.
  Qed.
  Lemma F_arrayBase : forall i, head i <> 117 -> head i <> 99 -> head i <> 115 -> fails (arrayBase sd) i.
  Proof.
    intros i H1 H2 H3. unfold arrayBase. apply fails_or; [apply fails_then, F_intType; auto|].
    apply fails_or; [heads|apply F_structRef; auto].
  Qed.

  (** Arrays up to the bracket. *)
  Definition pre {B} (k : type -> string -> P B) : P B :=
    b <-- arrayBase sd ;; sk1 ;;; n <-- ident ;; sk ;;; lit "[" ;;; k b n.

  Lemma pre_name : forall B (k : type -> string -> P B) b s1 i m m2 n m3 m5,
    ArrayBase SD b s1 i m -> gap1 tt [] m m2 -> Identifier n [] m2 m3 -> blanks m3 (points "[" ++ m5) ->
    (forall x s r, gives (k b n) m5 x s r -> gives (pre k) i x (s1 ++ s) r) /\
    (fails (k b n) m5 -> fails (pre k) i).
  Proof.
    intros B k b s1 i m m2 n m3 m5 H1 H2 H3 H4.
    assert (N : nameThen m 91) by (exists m2, n, m3; split; [exact H2|split; [exact H3|eexists; split; [exact H4|reflexivity]]]).
    pose proof (C_ArrayBase _ _ _ _ _ H1 N (or_intror eq_refl)) as G1. unfold pre. split.
    - intros x s r G. eapply gives_then; [exact G1|]. eapply gives_seq; [apply sk1_gives; exact H2|].
      eapply gives_seq; [apply ident_gives; exact H3|]. eapply gives_seq; [apply sk_at; exact H4|].
      eapply gives_seq; [apply gives_lit|]. exact G.
    - intros F. eapply fails_after; [exact G1|]. eapply fails_after; [apply sk1_gives; exact H2|].
      eapply fails_after; [apply ident_gives; exact H3|]. eapply fails_after; [apply sk_at; exact H4|].
      eapply fails_after; [apply gives_lit|]. exact F.
  Qed.
  Lemma pre_other : forall B (k : type -> string -> P B) b s1 i m, gives (arrayBase sd) i b s1 m ->
    nameThen m 59 -> fails (pre k) i.
  Proof.
    intros B k b s1 i m G (m2 & n & m3 & G1 & G2 & (m4 & G3 & E)). unfold pre.
    eapply fails_after; [exact G|]. eapply fails_after; [apply sk1_gives; exact G1|].
    eapply fails_after; [apply ident_gives; exact G2|]. eapply fails_after; [apply sk_at; exact G3|].
    apply fails_then, fails_lit_head. unfold head in E. rewrite E. cbn. lia.
  Qed.
  Lemma pre_int : forall B (k : type -> string -> P B) t s1 i m m2 n m3 c, IntType t s1 i m ->
    blanks m m2 -> Identifier n [] m2 m3 -> ahead m3 c -> c <> 91 -> fails (pre k) i.
  Proof.
    intros B k t s1 i m m2 n m3 c H1 H2 H3 (m4 & G3 & E) Hc. unfold pre.
    eapply fails_after.
    { unfold arrayBase. apply gives_left. eapply gives_then; [apply C_IntType; exact H1|apply gives_ret]. }
    destruct (sk1_either _ _ H2) as [F|G]; [apply fails_then; exact F|].
    eapply fails_after; [exact G|].
    eapply fails_after; [apply ident_gives; exact H3|]. eapply fails_after; [apply sk_at; exact G3|].
    apply fails_then, fails_lit_head. unfold head in E. rewrite E. cbn. lia.
  Qed.
  Lemma pre_head : forall B (k : type -> string -> P B) i, head i <> 117 -> head i <> 99 -> head i <> 115 ->
    fails (pre k) i.
  Proof. intros. unfold pre. apply fails_then, F_arrayBase; auto. Qed.
  Lemma pre_union : forall B (k : type -> string -> P B) m, fails (pre k) (points "union" ++ m).
  Proof.
    intros B k m. unfold pre. apply fails_then. unfold arrayBase. apply fails_or; [|apply fails_or].
    - apply fails_then. unfold intTypeP. eapply fails_after; [apply (gives_lit "u")|].
      unfold sizeP. repeat apply fails_or; apply fails_then, fails_lit_head; cbn; lia.
    - apply fails_then, fails_lit_head. cbn. lia.
    - apply F_structRef. cbn. lia.
  Qed.

  Definition kFixed (b : type) (n : string) : P member := s <-- integerP ;; lit "]" ;;; ret (MField n (TFixed b s)).
  Definition kVar (b : type) (n : string) : P member := l <-- lengthP ;; lit "]" ;;; ret (MField n (TVar b (Some l))).
  Definition kRest (b : type) (n : string) : P member := sk ;;; lit "]" ;;; ret (MField n (TVar b None)).
  Lemma fixed_pre : fixedArray sd = pre kFixed. Proof. reflexivity. Qed.
  Lemma var_pre : varArray sd = pre kVar. Proof. reflexivity. Qed.
  Lemma rest_pre : remainder sd = pre kRest. Proof. reflexivity. Qed.

  (** The parts of an array. *)
  Lemma array_parts : forall (K : type -> string -> prod member) a ss i r,
    (b <~ ArrayBase SD ;; gap1 ~~ n <~ Identifier ;; gap ~~ tok "[" ~~ K b n) a ss i r ->
    exists b s1 m m2 n m3 m5 s, ArrayBase SD b s1 i m /\ gap1 tt [] m m2 /\ Identifier n [] m2 m3 /\
      blanks m3 (points "[" ++ m5) /\ K b n a s m5 r /\ ss = s1 ++ s.
  Proof.
    intros K a ss i r (b & s1 & t1 & m & H1 & ([] & s2 & t2 & m2 & H2 & (n & s3 & t3 & m3 & H3 & (u & s4 & t4 & m4 & H4 &
      (u1 & s5 & t5 & m5 & H5 & H6 & ->) & ->) & ->) & ->) & ->).
    pose proof H2 as (-> & _). pose proof H3 as (-> & _). destruct H4 as [-> H4]. destruct H5 as [-> ->].
    exists b, s1, m, m2, n, m3, m5, t5. auto 10.
  Qed.

  Lemma C_Fixed : forall a ss i r, FixedArray SD a ss i r -> gives (fixedArray sd) i a ss r.
  Proof.
    intros a ss i r H. apply array_parts in H. destruct H as (b & s1 & m & m2 & n & m3 & m5 & s & H1 & H2 & H3 & H4 & H5 & ->).
    rewrite fixed_pre. eapply pre_name; eauto. unfold kFixed. go H5; [apply C_Int; assumption|]. go H5; [atoms|]. atoms.
  Qed.
  Lemma kFixed_fails : forall b n l s m5 m6 m7, such notConstant Len l s m5 m6 -> m6 = points "]" ++ m7 ->
    fails (kFixed b n) m5.
  Proof.
    intros b n l s m5 m6 m7 [[H|H] N] E; unfold kFixed.
    - apply fails_then, F_integer. destruct H as (u & s1 & s2 & m & (_ & ->) & _). reflexivity.
    - destruct H as (rf & s1 & s2 & m & H & (-> & _ & E1) & _). subst m.
      assert (K : exists w k, Identifier w [] m5 k /\ head k <> 93 \/ (Identifier w [] m5 k /\ ~ constantName w)).
      { destruct H as [H|H].
        - destruct H as (w & s3 & s4 & k & H & (u & s5 & s6 & k1 & (_ & ->) & _) & _). pose proof H as (-> & _).
          exists w, (points "." ++ k1). left. split; auto. cbn. lia.
        - destruct H as (w & s3 & s4 & k & H & (-> & _ & E1) & _). pose proof H as (-> & _). subst k.
          exists w, m6. right. split; auto. }
      destruct K as (w & k & K).
      assert (Iw : Identifier w [] m5 k) by tauto.
      destruct (const_prefix _ _ _ _ Iw) as [F|(w' & k' & G & Q)].
      + apply fails_then. unfold integerP. apply fails_or; [apply fails_then; exact F|]. apply fails_then, intLit_fails, stops_head.
        apply Identifier_head in Iw. chars.
      + eapply fails_after.
        { unfold integerP. apply gives_left. eapply gives_seq; [exact G|apply gives_ret]. }
        apply fails_then, fails_lit_head. cbn. change (hd (-1) k') with (head k').
        destruct Q as [[-> C]|Q]; [destruct K as [[_ K]|[_ K]]; tauto|]. chars.
  Qed.
  Lemma C_Var : forall a ss i r, VarArray SD a ss i r ->
    fails (fixedArray sd) i /\ gives (varArray sd) i a ss r.
  Proof.
    intros a ss i r H. apply array_parts in H. destruct H as (b & s1 & m & m2 & n & m3 & m5 & s & H1 & H2 & H3 & H4 & H5 & ->).
    split.
    - rewrite fixed_pre. eapply pre_name; eauto.
      destruct H5 as (l & s2 & s3 & m6 & H5 & (u & s4 & s5 & m7 & (_ & H6) & _) & _). eapply kFixed_fails; eauto.
    - rewrite var_pre. eapply pre_name; eauto. unfold kVar. go H5.
      + apply C_Len; [apply H|]. destruct H5 as (u & y4 & y5 & k7 & (_ & ->) & _). cbn. lia.
      + go H5; [atoms|]. atoms.
  Qed.
  Lemma C_Remainder : forall a ss i r, Remainder SD a ss i r -> gives (remainder sd) i a ss r.
  Proof.
    intros a ss i r H. apply array_parts in H. destruct H as (b & s1 & m & m2 & n & m3 & m5 & s & H1 & H2 & H3 & H4 & H5 & ->).
    rewrite rest_pre. eapply pre_name; eauto. unfold kRest. go H5; [atoms|]. go H5; [atoms|]. atoms.
  Qed.
  Lemma C_arrayP : forall a ss i r, either (FixedArray SD) (VarArray SD) a ss i r -> gives (arrayP sd) i a ss r.
  Proof.
    intros a ss i r [H|H]; unfold arrayP.
    - apply gives_left, C_Fixed; auto.
    - apply C_Var in H. apply gives_right; apply H.
  Qed.

  Lemma C_IntField : forall a ss i r, IntField a ss i r -> ahead r 59 ->
    fails (arrayP sd) i /\ gives smInteger i a ss r.
  Proof.
    intros a ss i r H A. split.
    - destruct H as (t & s1 & t1 & m & H1 & (u & s2 & t2 & m2 & [_ H2] & (n & s3 & t3 & m3 & H3 & (u1 & s4 & t4 & m4 & [_ H4] &
        (c & s5 & t5 & m5 & H5 & (_ & _ & E) & _) & _) & _) & _) & _). subst m5. pose proof H3 as (-> & _).
      assert (X : exists c, ahead m3 c /\ c <> 91).
      { destruct c as [c|]; cbn in H5.
        - destruct H5 as (u2 & s6 & s7 & m6 & (_ & ->) & _). exists 73. split; [|lia]. eexists. split; [exact H4|reflexivity].
        - destruct H5 as [_ ->]. exists 59. split; [|lia]. eapply ahead_before; eauto. }
      destruct X as (x & X & Nx). unfold arrayP. rewrite fixed_pre, var_pre.
      apply fails_or; eapply pre_int; eauto.
    - unfold smInteger. go H; [apply C_IntType; assumption|]. go H; [atoms|]. go H; [atoms|]. go H; [atoms|].
      eapply gives_follow; [exact H|]. intros c y1 y2 k Hc (-> & -> & E). subst k. split; [|apply gives_ret].
      destruct c as [c|]; cbn in Hc.
      + apply gives_some, C_Constraint; auto.
      + destruct Hc as [-> Hc]. subst. apply gives_none. unfold constraintP. apply fails_then, fails_lit_head.
        match goal with X : gap _ _ _ _ |- _ => destruct X as [_ B]; clear X | _ => idtac end.
        apply ahead_head in A. unfold head in A. cbn [In] in A. cbn. lia.
  Qed.
  Lemma C_String : forall a ss i r, String_ a ss i r -> head i = 110 /\ gives smString i a ss r.
  Proof.
    intros a ss i r H. split.
    - destruct H as (u & s1 & t1 & m & (_ & ->) & _). reflexivity.
    - unfold smString. go H; [atoms|]. go H; [atoms|]. go H; [atoms|]. atoms.
  Qed.
  Lemma C_Position : forall a ss i r, Position a ss i r -> head i = 64 /\ gives smPosition i a ss r.
  Proof.
    intros a ss i r H. split.
    - destruct H as (u & s1 & t1 & m & (_ & ->) & _). reflexivity.
    - unfold smPosition. go H; [atoms|]. go H; [atoms|]. go H; [atoms|]. atoms.
  Qed.
  Lemma C_StructField : forall a ss i r, StructField SD a ss i r -> ahead r 59 ->
    head i = 115 /\ fails (arrayP sd) i /\ gives (smStruct sd) i a ss r.
  Proof.
    intros a ss i r H A.
    destruct H as (t & s1 & t1 & m & H1 & ([] & s2 & t2 & m2 & H2 & (n & s3 & t3 & m3 & H3 & (-> & -> & E) & ->) & ->) & ->).
    subst m3. pose proof H2 as (-> & _). pose proof H3 as (-> & _).
    assert (N : nameThen m 59) by (exists m2, n, r; auto).
    pose proof (StructRef_head _ _ _ _ H1) as Hh. pose proof (C_StructRef _ _ _ _ _ H1 N (or_introl eq_refl)) as G.
    split; auto. split.
    - unfold arrayP. rewrite fixed_pre, var_pre. assert (B : gives (arrayBase sd) i t s1 m).
      { eapply C_ArrayBase; [right; exact H1|exact N|auto]. }
      apply fails_or; eapply pre_other; eauto.
    - unfold smStruct. eapply gives_then; [exact G|]. eapply gives_seq; [apply sk1_gives; exact H2|].
      eapply gives_seq; [apply ident_gives; exact H3|]. apply gives_ret.
  Qed.
  Lemma F_smInteger : forall i, head i <> 117 -> fails smInteger i.
  Proof. intros i H. unfold smInteger. apply fails_then, F_intType; auto. Qed.
  Lemma F_smString : forall i, head i <> 110 -> fails smString i.
  Proof. intros i H. unfold smString. apply fails_then, fails_lit_head. exact H. Qed.
  Lemma F_smPosition : forall i, head i <> 64 -> fails smPosition i.
  Proof. intros i H. unfold smPosition. apply fails_then, fails_lit_head. exact H. Qed.
  Lemma F_smStruct : forall i, head i <> 115 -> fails (smStruct sd) i.
  Proof. intros i H. unfold smStruct. apply fails_then, F_structRef. auto. Qed.
  Lemma F_arrayP : forall i, head i <> 117 -> head i <> 99 -> head i <> 115 -> fails (arrayP sd) i.
  Proof. intros. unfold arrayP. rewrite fixed_pre, var_pre. apply fails_or; apply pre_head; auto. Qed.
  Lemma F_smUnion : forall i, head i <> 117 -> fails (smUnion sd) i.
  Proof. intros i H. unfold smUnion. apply fails_then, fails_lit_head. exact H. Qed.

  Lemma C_Field : forall a ss i r, Field SD a ss i r -> ahead r 59 ->
    gives (arrayP sd <|> smInteger <|> smString <|> smStruct sd) i a ss r.
  Proof.
    intros a ss i r [[[H|H]|H]|H] A.
    - apply gives_left, C_arrayP; auto.
    - destruct (C_IntField _ _ _ _ H A). apply gives_right; auto. apply gives_left; auto.
    - apply C_String in H. destruct H as [Hh G].
      apply gives_right; [apply F_arrayP; lia|]. apply gives_right; [apply F_smInteger; lia|]. apply gives_left; auto.
    - destruct (C_StructField _ _ _ _ H A) as (Hh & F & G).
      apply gives_right; auto. apply gives_right; [apply F_smInteger; lia|]. apply gives_right; [apply F_smString; lia|]. auto.
  Qed.
  (** ** Members with their semicolons *)
  Definition endedP {A} (p : P A) : P A := sk ;;; x <-- p ;; sk ;;; lit ";" ;;; ret x.
  Lemma sk_same : forall A (k : P A) i m l e, blanks i m -> (sk ;;; k) (mkD i l e) = (sk ;;; k) (mkD m l e).
  Proof.
    intros A k i m l e B. unfold andThen. rewrite (sk_at _ _ B), (sk_at _ _ (blanks_again _ _ B)). reflexivity.
  Qed.
  Lemma gives_same : forall A (k : P A) i m a ss r, blanks i m -> gives (sk ;;; k) i a ss r -> gives (sk ;;; k) m a ss r.
  Proof. intros A k i m a ss r B G l e. rewrite <- (sk_same _ k i m) by auto. apply G. Qed.
  Lemma fails_same : forall A (k : P A) i m, blanks i m -> fails (sk ;;; k) i -> fails (sk ;;; k) m.
  Proof. intros A k i m B G l e. rewrite <- (sk_same _ k i m) by auto. apply G. Qed.

  Lemma C_ended : forall A (p : P A) (R : prod A) a ss i r, ended R a ss i r ->
    (forall a s m k, R a s m k -> ahead k 59 -> gives p m a s k) -> gives (endedP p) i a ss r.
  Proof.
    intros A p R a ss i r H G. unfold endedP. go H; [atoms|]. go H.
    - apply G; auto. destruct H as (v & y1 & y2 & k1 & [_ B] & (v1 & y3 & y4 & k2 & (_ & ->) & _) & _).
      eexists. split; [exact B|]. reflexivity.
    - go H; [atoms|]. go H; [atoms|]. atoms.
  Qed.

  Definition noField (c : Z) : Prop := c <> 117 /\ c <> 99 /\ c <> 115 /\ c <> 110 /\ c <> 64.
  Lemma F_unionField : forall i c, ahead i c -> noField c -> fails (unionField sd) i.
  Proof.
    intros i c (m & B & H) (H1 & H2 & H3 & H4 & H5). unfold unionField. eapply fails_after; [apply sk_at; exact B|].
    apply fails_then. rewrite <- H in *. apply fails_or; [apply F_arrayP; auto|]. apply fails_or; [apply F_smInteger; auto|].
    apply fails_or; [apply F_smString; auto|apply F_smStruct; auto].
  Qed.
  Lemma F_structMember : forall i c, ahead i c -> noField c -> fails (structMember sd) i.
  Proof.
    intros i c (m & B & H) (H1 & H2 & H3 & H4 & H5). unfold structMember. eapply fails_after; [apply sk_at; exact B|].
    apply fails_then. rewrite <- H in *. apply fails_or; [apply F_arrayP; auto|]. apply fails_or; [apply F_smInteger; auto|].
    apply fails_or; [apply F_smPosition; auto|]. apply fails_or; [apply F_smString; auto|].
    apply fails_or; [apply F_smStruct; auto|]. apply F_smUnion; auto.
  Qed.

  (** A remainder array is no member. *)
  Lemma remainder_dead : forall a ss i r, Remainder SD a ss i r ->
    fails (arrayP sd) i /\
    ((head i = 117 /\ exists x s m, gives smInteger i x s m /\ ahead m 91) \/
     head i = 99 \/
     (head i = 115 /\ exists x s m, gives (smStruct sd) i x s m /\ ahead m 91)).
  Proof.
    intros a ss i r H. apply array_parts in H. destruct H as (b & s1 & m & m2 & n & m3 & m5 & s & H1 & H2 & H3 & H4 & H5 & ->).
    assert (H5' : head m5 = 93 \/ In (head m5) [32; 9; 13; 10; 47]).
    { destruct H5 as (u & s2 & s3 & m6 & [_ B] & (u1 & s4 & s5 & m7 & (_ & ->) & _) & _).
      apply ahead_head. eexists. split; [exact B|reflexivity]. }
    cbn [In] in H5'. split.
    - unfold arrayP. rewrite fixed_pre, var_pre. apply fails_or; (eapply pre_name; [exact H1|exact H2|exact H3|exact H4|]).
      + unfold kFixed. apply fails_then, F_integer. chars.
      + unfold kVar. apply fails_then. unfold lengthP, leftoverP, idrefP. apply fails_or.
        * apply fails_then, fails_then, fails_lit_head. unfold head in H5'. cbn. lia.
        * apply fails_then.
          assert (Fi : fails ident m5) by (apply ident_fails, stops_head; chars).
          eapply fails_after; [apply gives_none, fails_then; exact Fi|]. apply fails_then. exact Fi.
    - assert (N : nameThen m 91) by (exists m2, n, m3; split; [exact H2|split; [exact H3|eexists; split; [exact H4|reflexivity]]]).
      pose proof (gap1_blanks _ _ _ _ H2) as [_ B2].
      destruct H1 as [[H1|H1]|H1].
      + left. destruct H1 as (t & t1 & t2 & k & H1 & (-> & -> & E) & ->). subst k. split; [eapply IntType_head; eauto|].
        do 3 eexists. split.
        * unfold smInteger. eapply gives_then; [apply C_IntType; exact H1|]. eapply gives_seq; [apply sk_at; exact B2|].
          eapply gives_seq; [apply ident_gives; exact H3|]. eapply gives_seq; [apply sk_at; exact H4|].
          eapply gives_seq; [|apply gives_ret]. apply gives_none. unfold constraintP. apply fails_then, fails_lit_head.
          cbn. lia.
        * eexists. split; [eapply blanks_again; exact H4|reflexivity].
      + right. left. apply (as_tok_head _ _ _ _ _ _ _ _ H1).
      + right. right. split; [eapply StructRef_head; eauto|]. do 3 eexists. split.
        * unfold smStruct. eapply gives_then; [eapply C_StructRef; eauto|]. eapply gives_seq; [apply sk1_gives; exact H2|].
          eapply gives_seq; [apply ident_gives; exact H3|apply gives_ret].
        * eexists. split; [exact H4|reflexivity].
  Qed.
  Lemma gives_fails_end : forall A (p : P A) i x s m c, gives p i x s m -> ahead m c -> c <> 59 ->
    fails (x <-- p ;; sk ;;; lit ";" ;;; ret x) i.
  Proof.
    intros A p i x s m c G (k & B & E) Hc. eapply fails_after; [exact G|]. eapply fails_after; [apply sk_at; exact B|].
    apply fails_then, fails_lit_head. unfold head in E. rewrite E. cbn. lia.
  Qed.
  Lemma remainder_no_field : forall a ss i m r, blanks i m -> Remainder SD a ss m r ->
    fails (unionField sd) i /\ fails (structMember sd) i.
  Proof.
    intros a ss i m r B H. apply remainder_dead in H. destruct H as [F H]. unfold unionField, structMember.
    split; (eapply fails_after; [apply sk_at; exact B|]).
    - destruct H as [(Hh & x & s & k & G & A)|[Hh|(Hh & x & s & k & G & A)]].
      + eapply gives_fails_end; [|exact A|lia]. apply gives_right; [exact F|]. apply gives_left. exact G.
      + apply fails_then. apply fails_or; [exact F|]. apply fails_or; [apply F_smInteger; lia|].
        apply fails_or; [apply F_smString; lia|apply F_smStruct; lia].
      + eapply gives_fails_end; [|exact A|lia]. apply gives_right; [exact F|]. apply gives_right; [apply F_smInteger; lia|].
        apply gives_right; [apply F_smString; lia|]. exact G.
    - destruct H as [(Hh & x & s & k & G & A)|[Hh|(Hh & x & s & k & G & A)]].
      + eapply gives_fails_end; [|exact A|lia]. apply gives_right; [exact F|]. apply gives_left. exact G.
      + apply fails_then. apply fails_or; [exact F|]. apply fails_or; [apply F_smInteger; lia|].
        apply fails_or; [apply F_smPosition; lia|]. apply fails_or; [apply F_smString; lia|].
        apply fails_or; [apply F_smStruct; lia|apply F_smUnion; lia].
      + eapply gives_fails_end; [|exact A|lia]. apply gives_right; [exact F|]. apply gives_right; [apply F_smInteger; lia|].
        apply gives_right; [apply F_smPosition; lia|]. apply gives_right; [apply F_smString; lia|]. apply gives_left. exact G.
  Qed.

  Lemma C_star : forall A (p : P A) (R : prod A), eatsSome p -> (forall a ss i r, R a ss i r -> gives p i a ss r) ->
    forall l ss i r, star R l ss i r -> fails p r -> gives (many p) i l ss r.
  Proof.
    intros A p R E G l ss i r H. induction H as [i | a l s1 s2 i m r H1 H2 IH]; intros F.
    - apply gives_many_nil; auto.
    - eapply gives_many_cons; eauto.
  Qed.
  Lemma C_star_lead : forall A (k : P A) (R : prod A), eatsSome (sk ;;; k) ->
    (forall a ss i r, R a ss i r -> gives (sk ;;; k) i a ss r) ->
    forall l ss i r i1, star R l ss i r -> fails (sk ;;; k) r -> blanks i i1 ->
    exists r1, gives (many (sk ;;; k)) i1 l ss r1 /\ (forall q, blanks r q -> blanks r1 q).
  Proof.
    intros A k R E G l ss i r i1 H F B. destruct H as [i | a l s1 s2 i m r H1 H2].
    - exists i1. split.
      + apply gives_many_nil; auto. eapply fails_same; eauto.
      + intros q Q. rewrite (blanks_det _ _ _ Q B). eapply blanks_again; eauto.
    - exists r. split; auto. eapply gives_many_cons; [auto| |eapply C_star; eauto].
      eapply gives_same; [exact B|]. auto.
  Qed.

  Definition labelHead (c : Z) : Prop := digit10 c = true \/ upper c = true \/ c = 100 \/ c = 125.
  Definition labelAhead (r : list Z) : Prop := exists c, ahead r c /\ labelHead c.
  Lemma label_noField : forall c, labelHead c -> noField c.
  Proof. intros c H. unfold noField. unfold labelHead in H. chars. Qed.

  Lemma Remainder_head : forall a ss i r, Remainder SD a ss i r -> head i = 117 \/ head i = 99 \/ head i = 115.
  Proof. intros a ss i r H. apply remainder_dead in H. tauto. Qed.

  Lemma C_Extent : forall a ss i r, ended (Extent SD) a ss i r -> forall q, blanks i q -> gives (extent sd) q a ss r.
  Proof.
    intros a ss i r (u & s1 & s2 & m & [-> B] & H & ->) q Bq. rewrite (blanks_det _ _ _ Bq B). cbn [app]. unfold extent.
    destruct H as (x & s3 & s4 & k & [H|H] & K & ->).
    - apply gives_left. destruct H as (u1 & s5 & s6 & k1 & H & (-> & -> & E) & ->). subst k1. rewrite app_nil_r.
      eapply gives_then; [apply gives_tok; exact H|].
      go K; [atoms|]. go K; [atoms|]. atoms.
    - apply gives_right.
      + apply Remainder_head in H. heads.
      + eapply gives_then; [apply C_Remainder; exact H|]. go K; [atoms|]. go K; [atoms|]. atoms.
  Qed.
  Lemma F_extent : forall i, head i <> 46 -> head i <> 117 -> head i <> 99 -> head i <> 115 -> fails (extent sd) i.
  Proof.
    intros i H1 H2 H3 H4. unfold extent. apply fails_or; [heads|]. apply fails_then. rewrite rest_pre. apply pre_head; auto.
  Qed.
  Lemma Extent_no_field : forall a ss i r, ended (Extent SD) a ss i r -> fails (unionField sd) i.
  Proof.
    intros a ss i r (u & s1 & s2 & m & [_ B] & (x & s3 & s4 & k & [H|H] & _) & _).
    - apply (F_unionField _ 46); [|unfold noField; lia]. exists m. split; auto. apply (as_tok_head _ _ _ _ _ _ _ _ H).
    - eapply remainder_no_field; eauto.
  Qed.

  Lemma C_unionField : forall a ss i r, ended (Field SD) a ss i r -> gives (unionField sd) i a ss r.
  Proof. intros a ss i r H. eapply C_ended; [exact H|]. intros. apply C_Field; auto. Qed.

  Lemma C_Fields : forall a ss i r i1, Fields SD a ss i r -> labelAhead r -> blanks i i1 ->
    exists r1, gives (unionFields sd) i1 a ss r1 /\ (forall q, blanks r q -> blanks r1 q).
  Proof.
    intros a ss i r i1 (ms & s1 & s2 & m & H & (e & s3 & s4 & m1 & He & (-> & -> & E) & ->) & ->) (c & A & L) B.
    subst m1. assert (F : fails (unionField sd) m).
    { destruct e as [e|]; cbn in He.
      - eapply Extent_no_field; eauto.
      - destruct He as [_ ->]. eapply F_unionField; eauto. apply label_noField; auto. }
    destruct (C_star_lead _ _ (ended (Field SD)) (eats_unionField _ Heats) C_unionField _ _ _ _ _ H F B) as (r1 & G & Q).
    destruct (blanks_total m) as [q Bq]. destruct e as [e|]; cbn in He.
    - exists r. split; auto. unfold unionFields. eapply gives_then; [exact G|].
      eapply gives_seq; [apply sk_at, Q; exact Bq|]. eapply gives_then with (a := Some e); [|apply gives_ret].
      apply gives_some. eapply C_Extent; eauto.
    - destruct He as [-> ->]. exists q. split; [|intros q' Q'; rewrite (blanks_det _ _ _ Q' Bq); eapply blanks_again; eauto].
      unfold unionFields. eapply gives_then; [exact G|].
      eapply gives_seq; [apply sk_at, Q; exact Bq|]. eapply gives_then with (a := None); [|apply gives_ret].
      apply gives_none. apply (ahead_fun _ _ _ A) in Bq. apply label_noField in L as N. unfold noField, labelHead in *.
      apply F_extent; chars.
  Qed.
  Lemma Fields_ahead : forall a ss i r, Fields SD a ss i r -> labelAhead r ->
    exists c, ahead i c /\ c <> 59 /\ c <> 102 /\ c <> 105.
  Proof.
    intros a ss i r (ms & s1 & s2 & m & H & (e & s3 & s4 & m1 & He & (-> & -> & E) & ->) & ->) (c & A & L). subst m1.
    destruct H as [i | x l t1 t2 i k r0 (u & t3 & t4 & k1 & [_ B] & (y & t5 & t6 & k2 & H & _) & _) _].
    - destruct e as [e|]; cbn in He.
      + destruct He as (u & t3 & t4 & k1 & [_ B] & (y & t5 & t6 & k2 & [H|H] & _) & _).
        * exists 46. split; [|lia]. exists k1. split; auto. apply (as_tok_head _ _ _ _ _ _ _ _ H).
        * exists (head k1). split; [apply ahead_at; auto|]. apply Remainder_head in H. lia.
      + destruct He as [_ ->]. exists c. split; auto. unfold labelHead in L. chars.
    - exists (head k1). split; [apply ahead_at; auto|].
      assert (AB : forall b t i r, ArrayBase SD b t i r -> head i = 117 \/ head i = 99 \/ head i = 115).
      { intros b t j j' [[Hb|Hb]|Hb].
        - left. destruct Hb as (w & w1 & w2 & w3 & Hb & _). eapply IntType_head; eauto.
        - right. left. apply (as_tok_head _ _ _ _ _ _ _ _ Hb).
        - right. right. eapply StructRef_head; eauto. }
      destruct H as [[[[H|H]|H]|H]|H].
      + destruct H as (b & w1 & w2 & w3 & Hb & _). apply AB in Hb. lia.
      + destruct H as (b & w1 & w2 & w3 & Hb & _). apply AB in Hb. lia.
      + destruct H as (b & w1 & w2 & w3 & Hb & _). apply IntType_head in Hb. lia.
      + destruct H as (b & w1 & w2 & w3 & (_ & ->) & _). cbn. lia.
      + destruct H as (b & w1 & w2 & w3 & Hb & _). apply StructRef_head in Hb. lia.
  Qed.
  Lemma C_Body : forall a ss i r i1, Body SD a ss i r -> labelAhead r -> blanks i i1 ->
    exists r1, gives (unionBody sd) i1 a ss r1 /\ (forall q, blanks r q -> blanks r1 q).
  Proof.
    intros a ss i r i1 H L B. unfold unionBody. pose proof (blanks_again _ _ B) as B1.
    assert (K : forall (w : string) v, ended (as_ (fun _ => v) (tok w)) a ss i r ->
      (exists m, i1 = points w ++ m) /\ gives (lit w ;;; sk ;;; lit ";" ;;; ret v) i1 a ss r).
    { intros w v (u & s1 & s2 & m & [-> Bm] & (x & s3 & s4 & m1 & (u1 & s5 & s6 & m2 & T & (-> & -> & E) & ->) & H2 & ->) & ->).
      subst m2. rewrite (blanks_det _ _ _ B Bm). destruct T as [-> ->]. split; [eauto|]. cbn [app].
      eapply gives_seq; [apply gives_lit|]. go H2; [atoms|]. go H2; [atoms|]. atoms. }
    assert (S : forall c, head i1 = c -> c <> 59 -> fails (sk ;;; lit ";" ;;; ret (@nil member)) i1).
    { intros c Hc Nc. eapply fails_after; [apply sk_at; exact B1|]. heads. }
    destruct H as [[[H|H]|H]|H].
    - exists r. split; auto. apply gives_left.
      destruct H as (u & s1 & s2 & m & [-> Bm] & (x & s3 & s4 & m1 & (-> & -> & E) & (u1 & s5 & s6 & m2 & [-> B2] & H2 & ->) & ->) & ->).
      subst m1. rewrite (blanks_det _ _ _ B Bm). pose proof (blanks_twice _ _ _ Bm B2). subst m2. cbn [app].
      eapply gives_seq; [apply sk_at; exact B2|]. go H2; [atoms|]. atoms.
    - exists r. split; auto. destruct (K _ _ H) as [[m E] G]. apply gives_right; [apply (S 102); [rewrite E; reflexivity|lia]|].
      apply gives_left. exact G.
    - exists r. split; auto. destruct (K _ _ H) as [[m E] G]. apply gives_right; [apply (S 105); [rewrite E; reflexivity|lia]|].
      apply gives_right; [|apply gives_left; exact G]. rewrite E. apply fails_then, fails_lit_head. cbn. lia.
    - destruct (C_Fields _ _ _ _ _ H L B) as (r1 & G & Q). destruct (Fields_ahead _ _ _ _ H L) as (c & A & N1 & N2 & N3).
      apply (ahead_fun _ _ _ A) in B. exists r1. split; auto.
      apply gives_right; [apply (S c); auto|]. apply gives_right; [heads|]. apply gives_right; [heads|]. exact G.
  Qed.

  Lemma CaseLabel_head : forall a ss i r, CaseLabel a ss i r -> labelHead (head i).
  Proof.
    intros a ss i r [(l & s1 & s2 & m & (x & s3 & s4 & m1 & H & _) & _)|H]; unfold labelHead.
    - destruct H as [H|H]; destruct H as (y & s5 & s6 & m2 & H & _); apply Int_head in H; apply orb_prop in H; tauto.
    - pose proof (as_tok_head _ _ _ _ _ _ _ _ H) as Hh. cbn in Hh. tauto.
  Qed.
  Lemma C_CaseLabel : forall a ss i r, CaseLabel a ss i r -> (forall c, ahead r c -> c = 58) ->
    gives unionCase i a ss r.
  Proof.
    intros a ss i r [H|H] N; unfold unionCase.
    - apply gives_left. eapply gives_map; [exact H|]. intros. apply C_Ranges; auto. intros c X. apply N in X. lia.
    - apply gives_right.
      + pose proof (as_tok_head _ _ _ _ _ _ _ _ H) as Hh. cbn in Hh. apply fails_then. unfold intListP, rangeP.
        apply fails_then, fails_then, F_integer. rewrite Hh. reflexivity.
      + apply Size_lit. exact H.
  Qed.
  Lemma Case_ahead : forall a ss i r, Case SD a ss i r -> labelAhead i.
  Proof.
    intros a ss i r (u & s1 & s2 & m & [_ B] & (c & s3 & s4 & m1 & H & _) & _). exists (head m). split; [apply ahead_at; auto|].
    eapply CaseLabel_head; eauto.
  Qed.
  Lemma F_unionMember : forall i, head i = 125 -> fails (unionMember sd) i.
  Proof.
    intros i H. unfold unionMember. eapply fails_after; [apply sk_at, no_blank; rewrite H; cbn; lia|].
    apply fails_then. unfold unionCase. apply fails_or; [|heads]. apply fails_then. unfold intListP, rangeP.
    apply fails_then, fails_then, F_integer. rewrite H. reflexivity.
  Qed.
  Lemma C_Case : forall a ss i r r2, Case SD a ss i r -> labelAhead r -> blanks r r2 ->
    gives (unionMember sd) i a ss r2.
  Proof.
    intros a ss i r r2 (u & s1 & t1 & m & [-> B] & (c & s2 & t2 & m1 & H & (u1 & s3 & t3 & m2 & [-> B1] &
      (u2 & s4 & t4 & m3 & T & (ms & s5 & t5 & m4 & Hb & (-> & -> & E) & ->) & ->) & ->) & ->) & ->) L B2. subst m4.
    destruct (blanks_total m3) as [i1 Bi]. destruct (C_Body _ _ _ _ _ Hb L Bi) as (r1 & G & Q).
    destruct T as [-> ->]. cbn [app]. unfold unionMember. eapply gives_seq; [apply sk_at; exact B|]. eapply gives_then.
    { apply C_CaseLabel; [exact H|]. intros x X. rewrite <- (ahead_fun _ _ _ X B1). reflexivity. }
    eapply gives_seq; [apply sk_at; exact B1|]. eapply gives_seq; [apply gives_lit|].
    eapply gives_seq; [apply sk_at; exact Bi|]. eapply gives_then; [exact G|].
    eapply gives_seq; [apply sk_at, Q; exact B2|]. apply gives_ret.
  Qed.
  Lemma C_Cases : forall l ss i r, star (Case SD) l ss i r -> ahead r 125 ->
    labelAhead i /\
    forall i1 r2, blanks i i1 -> blanks r r2 -> gives (many (unionMember sd)) i1 l ss r2.
  Proof.
    intros l ss i r H. induction H as [i | a l s1 s2 i m r H1 H2 IH]; intros A.
    - split; [exists 125; split; auto; unfold labelHead; auto|]. intros i1 r2 B1 B2.
      rewrite (blanks_det _ _ _ B2 B1). apply gives_many_nil; [eats|]. apply F_unionMember. eapply ahead_fun; eauto.
    - destruct (IH A) as [L G]. split; [eapply Case_ahead; eauto|]. intros i1 r2 B1 B2.
      destruct (blanks_total m) as [m1 Bm]. eapply gives_many_cons; [eats| |apply G; eauto].
      eapply gives_same; [exact B1|]. eapply C_Case; eauto.
  Qed.

  Lemma C_Union : forall a ss i r, Union SD a ss i r ->
    (exists m, i = points "union" ++ m) /\ gives (smUnion sd) i a ss r.
  Proof.
    intros a ss i r H. split; [destruct H as (u & s1 & s2 & m & (_ & ->) & _); eauto|].
    unfold smUnion. do 5 (go H; [atoms|]). go H.
    { apply C_Ref; auto. destruct H as (v & y1 & y2 & k1 & (_ & ->) & _). cbn. lia. }
    do 2 (go H; [atoms|]).
    eapply gives_follow; [exact H|]. clear H. intros x y1 y2 k1 Hx H.
    assert (A : ahead k1 123).
    { destruct H as (v & z1 & z2 & k2 & [_ B] & (v1 & z3 & z4 & k3 & (_ & ->) & _) & _). eexists. split; [exact B|reflexivity]. }
    split.
    { destruct x as [x|]; cbn in Hx.
      - apply gives_some. unfold unionLength. do 4 (go Hx; [atoms|]). apply C_Len; auto.
        apply ahead_head in A. cbn [In] in A. lia.
      - destruct Hx as [-> ->]. apply gives_none. unfold unionLength.
        match goal with X : gap _ _ _ m6 |- _ => idtac | _ => idtac end.
        apply fails_then, fails_lit_head. apply ahead_head in A. unfold head in A. cbn [In] in A. cbn. lia. }
    do 2 (go H; [atoms|]).
    destruct H as (cs & z1 & z2 & k2 & S & (v & z3 & z4 & k3 & [-> B] & H & ->) & ->).
    assert (A2 : ahead k2 125).
    { destruct H as (v1 & z5 & z6 & k4 & (_ & ->) & _). eexists. split; [exact B|reflexivity]. }
    cbn [app]. match goal with |- gives _ ?j _ _ _ => destruct (blanks_total j) as [j1 Bj] end.
    eapply gives_seq; [apply sk_at; exact Bj|]. eapply gives_then; [apply (C_Cases _ _ _ _ S A2); eauto|].
    eapply gives_seq; [apply sk_at; eapply blanks_again; exact B|]. go H; [atoms|]. atoms.
  Qed.

  Lemma C_Member : forall a ss i r, Member SD a ss i r -> ahead r 59 ->
    gives (arrayP sd <|> smInteger <|> smPosition <|> smString <|> smStruct sd <|> smUnion sd) i a ss r.
  Proof.
    intros a ss i r [[[[[H|H]|H]|H]|H]|H] A.
    - apply gives_left, C_arrayP; auto.
    - destruct (C_IntField _ _ _ _ H A). apply gives_right; auto. apply gives_left; auto.
    - apply C_String in H. destruct H as [Hh G].
      apply gives_right; [apply F_arrayP; lia|]. apply gives_right; [apply F_smInteger; lia|].
      apply gives_right; [apply F_smPosition; lia|]. apply gives_left; auto.
    - destruct (C_StructField _ _ _ _ H A) as (Hh & F & G).
      apply gives_right; auto. apply gives_right; [apply F_smInteger; lia|]. apply gives_right; [apply F_smPosition; lia|].
      apply gives_right; [apply F_smString; lia|]. apply gives_left. auto.
    - apply C_Position in H. destruct H as [Hh G].
      apply gives_right; [apply F_arrayP; lia|]. apply gives_right; [apply F_smInteger; lia|]. apply gives_left; auto.
    - destruct (C_Union _ _ _ _ H) as [[m ->] G].
      apply gives_right; [unfold arrayP; rewrite fixed_pre, var_pre; apply fails_or; apply pre_union|].
      apply gives_right.
      { unfold smInteger. apply fails_then. unfold intTypeP. eapply fails_after; [apply (gives_lit "u")|].
        unfold sizeP. repeat apply fails_or; apply fails_then, fails_lit_head; cbn; lia. }
      apply gives_right; [apply F_smPosition; cbn; lia|]. apply gives_right; [apply F_smString; cbn; lia|].
      apply gives_right; [apply F_smStruct; cbn; lia|]. exact G.
  Qed.
  Lemma C_structMember : forall a ss i r, ended (Member SD) a ss i r -> gives (structMember sd) i a ss r.
  Proof. intros a ss i r H. eapply C_ended; [exact H|]. intros. apply C_Member; auto. Qed.
  Lemma C_structEnding : forall a ss i r, ended (Ending SD) a ss i r ->
    fails (structMember sd) i /\ gives (structEnding sd) i a ss r.
  Proof.
    intros a ss i r H. split.
    - destruct H as (u & s1 & s2 & m & [_ B] & (x & s3 & s4 & k & [H|H] & _) & _).
      + eapply remainder_no_field; eauto.
      + apply (F_structMember _ 101); [|unfold noField; lia]. exists m. split; auto. apply (as_tok_head _ _ _ _ _ _ _ _ H).
    - eapply C_ended; [exact H|]. intros e s m k [He|He] _.
      + apply gives_left, C_Remainder; auto.
      + pose proof (as_tok_head _ _ _ _ _ _ _ _ He) as Hh. cbn in Hh. apply gives_right; [|apply Size_lit; exact He].
        rewrite rest_pre. apply pre_head; lia.
  Qed.
  Lemma C_Struct : forall a ss i r, Struct SD a ss i r -> gives (structBody sd) i a ss r.
  Proof.
    intros a ss i r H. unfold structBody. go H; [apply C_StructName; assumption|].
    go H.
    { apply C_Contexts; auto. destruct H as (v & z1 & z2 & k2 & G1 & G2 & _). intros c X.
      left. apply (ahead_tok _ _ _ _ _ _ _ _ _ _ _ G1 G2 c X). }
    do 2 (go H; [atoms|]). go H.
    - eapply C_star; [eats|apply C_structMember|eassumption|].
      destruct H as (e & y1 & y2 & k1 & He & H & _). destruct e as [e|]; cbn in He.
      + apply C_structEnding in He. apply He.
      + destruct He as [_ ->]. apply (F_structMember _ 125); [|unfold noField; lia].
        destruct H as (v & z1 & z2 & k2 & [_ B] & (v1 & z3 & z4 & k3 & (_ & ->) & _) & _). eexists. split; [exact B|reflexivity].
    - destruct H as (e & y1 & y2 & k1 & He & H & ->).
      match goal with |- gives _ ?j _ _ _ => destruct (blanks_total j) as [j1 Bj] end.
      eapply gives_seq; [apply sk_at; exact Bj|]. destruct e as [e|]; cbn in He.
      + eapply gives_then with (a := Some e).
        * apply gives_some. apply C_structEnding in He. eapply gives_same; [exact Bj|]. apply He.
        * go H; [atoms|]. go H; [atoms|]. atoms.
      + destruct He as [-> ->]. destruct H as (v & z1 & z2 & k2 & [-> B] & H & ->).
        eapply gives_seq with (a := None) (m := j1).
        * apply gives_none. rewrite (blanks_det _ _ _ Bj B). unfold structEnding.
          destruct H as (v1 & z3 & z4 & k3 & (_ & ->) & _).
          eapply fails_after; [apply sk_at; eapply blanks_again; exact B|]. apply fails_then, fails_or.
          -- rewrite rest_pre. apply pre_head; cbn; lia.
          -- apply fails_then, fails_lit_head. cbn. lia.
        * rewrite (blanks_det _ _ _ Bj B). eapply gives_seq; [apply sk_at; eapply blanks_again; exact B|].
          cbn [app]. go H; [atoms|]. atoms.
  Qed.
End Members.

(** ** Structs *)
Lemma structBody_head : forall sd i, head i <> 115 -> fails (structBody sd) i.
Proof. intros sd i H. unfold structBody, structIdent. apply fails_then, fails_then, fails_lit_head. exact H. Qed.
Lemma later_no_blank : forall k, later_ (head k) = true -> fails sk1 k.
Proof.
  intros k H. apply sk1_fails. intros r B.
  assert (N : ~ In (head k) [32; 9; 13; 10; 47]) by (cbn [In]; chars).
  apply N. destruct B as [x j X | body j X | body j X Y]; cbn in *; lia.
Qed.
Lemma with_no_context : forall f m2 m3 c, Identifier f [] m2 m3 -> ahead m3 c -> c = 59 \/ c = 91 ->
  fails contextRefs m2.
Proof.
  intros f m2 m3 c (_ & c0 & cs & F & Fs & St & E & _) A Hc. unfold contextRefs.
  destruct (lit_or "with" m2) as [[k Ek]|[_ Fl]]; [|apply fails_then; exact Fl].
  rewrite Ek. eapply fails_after; [apply gives_lit|].
  rewrite Ek in E. cbn in E. injection E as E0 E. clear Ek E0.
  do 3 (destruct cs as [|? cs]; [cbn in E; subst m3; exfalso; cbn in St; discriminate|injection E as _ E;
        cbn [forallb] in Fs; apply andb_prop in Fs; destruct Fs as [_ Fs]]).
  subst k. destruct cs as [|x cs].
  - cbn [app]. destruct A as (m4 & B & A). destruct (sk1_either _ _ B) as [G|G]; [apply fails_then; exact G|].
    eapply fails_after; [exact G|]. apply fails_then, fails_lit_head. unfold head in A. rewrite A. cbn. lia.
  - apply fails_then, later_no_blank. cbn [forallb] in Fs. apply andb_prop in Fs. apply Fs.
Qed.
Lemma structBody_ref : forall sd n ss i m c, StructName n ss i m -> nameThen m c -> c = 59 \/ c = 91 ->
  fails (structBody sd) i.
Proof.
  intros sd n ss i m c H (m2 & f & m3 & G1 & G2 & A) Hc. unfold structBody.
  pose proof (gap1_blanks _ _ _ _ G1) as [_ B]. eapply fails_after; [apply C_StructName; exact H|].
  eapply fails_after.
  { unfold optContexts. eapply gives_seq with (a := None); [|apply gives_ret]. apply gives_none.
    eapply fails_after; [apply sk1_gives; exact G1|]. eapply with_no_context; eauto. }
  eapply fails_after; [apply sk_at; exact B|]. apply fails_then, fails_lit_head.
  apply Identifier_head in G2. unfold head in G2. cbn. chars.
Qed.
Lemma structDecl_head : forall n i, head i <> 115 -> fails (structDecl n) i.
Proof. intros [|n] i H; [intros l e; reflexivity|]. apply structBody_head; auto. Qed.
Lemma structDecl_ref : forall k n ss i m c, StructName n ss i m -> nameThen m c -> c = 59 \/ c = 91 ->
  fails (structDecl k) i.
Proof. intros [|k] n ss i m c H N Hc; [intros l e; reflexivity|]. eapply structBody_ref; eauto. Qed.
Lemma StructN_head : forall k s ss i r, StructN k s ss i r -> head i = 115.
Proof.
  intros [|k] s ss i r H; [destruct H|]. destruct H as (n & s1 & s2 & m & H & _). eapply StructName_head; eauto.
Qed.
Lemma C_StructN : forall k n s ss i r, (k <= n)%nat -> StructN k s ss i r -> gives (structDecl n) i s ss r.
Proof.
  induction k as [|k IH]; intros n s ss i r L H; [destruct H|].
  destruct n as [|n]; [lia|]. cbn [structDecl]. eapply C_Struct with (SD := StructN k); auto.
  - apply eats_structDecl.
  - intros. apply IH; auto. lia.
  - intros. eapply StructN_head; eauto.
  - apply structDecl_head.
  - apply structDecl_ref.
Qed.

(** ** Declarations *)
Lemma C_semicolon : forall A (x : A) a ss i r, (maybe (gap ~~ tok ";") ~~ empty x) a ss i r ->
  (forall c, ahead r c -> c <> 59) ->
  a = x /\ ss = [] /\
  forall B (y : B), exists r1, gives (sk ;;; opt (lit ";") ;;; ret y) i y [] r1 /\ (forall q, blanks r q -> blanks r1 q).
Proof.
  intros A x a ss i r (e & s1 & s2 & m & He & (-> & -> & E) & ->) N. subst m. destruct e as [e|]; cbn in He.
  - destruct He as (u & s3 & s4 & m & [-> Bm] & [-> ->] & ->). split; auto. split; auto. intros B y. exists r. split; auto.
    eapply gives_seq; [apply sk_at; exact Bm|]. eapply gives_seq; [|apply gives_ret].
    eapply gives_some. apply gives_lit.
  - destruct He as [-> ->]. split; auto. split; auto. intros B y. destruct (blanks_total i) as [m Bm]. exists m. split.
    + eapply gives_seq; [apply sk_at; exact Bm|]. eapply gives_seq; [|apply gives_ret]. apply gives_none.
      apply fails_lit_head. apply (N (head m)), ahead_at. exact Bm.
    + intros q Q. rewrite (blanks_det _ _ _ Q Bm). eapply blanks_again; eauto.
Qed.

Lemma C_ctxMember : forall a ss i r r2, ContextField a ss i r -> blanks r r2 -> gives ctxMember i a ss r2.
Proof.
  intros a ss i r r2 (u & s1 & t1 & m & [-> B] & (x & s2 & t2 & m1 & (t & s3 & t3 & m2 & H1 & ([] & s4 & t4 & m3 & H2 &
    (n & s5 & t5 & m4 & H3 & (-> & -> & E) & ->) & ->) & ->) & (u1 & s6 & t6 & m5 & [-> B1] & (u2 & s7 & t7 & m6 & T & (-> & -> & E1) & ->) & ->) & ->) & ->) B2.
  subst m4 m6. pose proof H2 as (-> & _). pose proof H3 as (-> & _). destruct T as [-> ->]. cbn [app]. rewrite !app_nil_r.
  unfold ctxMember. eapply gives_seq; [apply sk_at; exact B|]. rewrite <- (app_nil_r s3).
  eapply gives_then; [apply C_IntType; exact H1|]. eapply gives_seq; [apply sk1_gives; exact H2|].
  eapply gives_seq; [apply ident_gives; exact H3|]. eapply gives_seq; [apply sk_at; exact B1|].
  eapply gives_seq; [apply gives_lit|]. eapply gives_seq; [apply sk_at; exact B2|]. apply gives_ret.
Qed.
Lemma C_ctxMembers : forall l ss i r, star ContextField l ss i r -> ahead r 125 ->
  forall i1 r2, blanks i i1 -> blanks r r2 -> gives (many ctxMember) i1 l ss r2.
Proof.
  intros l ss i r H. induction H as [i | a l s1 s2 i m r H1 H2 IH]; intros A i1 r2 B1 B2.
  - rewrite (blanks_det _ _ _ B2 B1). apply gives_many_nil; [eats|]. unfold ctxMember.
    eapply fails_after; [apply sk_at; eapply blanks_again; exact B1|]. apply fails_then, F_intType.
    rewrite (ahead_fun _ _ _ A B1). lia.
  - destruct (blanks_total m) as [m1 Bm]. eapply gives_many_cons; [eats| |apply (IH A); eauto].
    eapply gives_same; [exact B1|]. eapply C_ctxMember; eauto.
Qed.

Lemma C_ConstDecl : forall a ss i r, ConstDecl a ss i r -> head i = 99 /\
  exists d, declOf d = a /\ gives constP i d ss r.
Proof.
  intros a ss i r H. split; [destruct H as (u & s1 & s2 & m & (_ & ->) & _); reflexivity|].
  destruct H as (u1 & s1 & t1 & m1 & T1 & (u2 & s2 & t2 & m2 & H2 & (n & s3 & t3 & m3 & H3 & (u4 & s4 & t4 & m4 & H4 &
    (u5 & s5 & t5 & m5 & T5 & (u6 & s6 & t6 & m6 & H6 & (v & s7 & t7 & m7 & H7 & (u8 & s8 & t8 & m8 & H8 &
    (u9 & s9 & t9 & m9 & T9 & (-> & -> & E) & ->) & ->) & ->) & ->) & ->) & ->) & ->) & ->) & ->). subst m9.
  exists (DConst (mkConst n v)). split; auto. unfold constP.
  do 9 (eapply gives_then; [atoms|]). apply gives_ret.
Qed.
Lemma F_constP : forall i, (forall m, i <> points "const" ++ m) -> fails constP i.
Proof. intros i H. unfold constP. apply fails_then, fails_lit. exact H. Qed.

Lemma C_ContextDecl : forall a ss i r, ContextDecl a ss i r -> (forall c, ahead r c -> c <> 59) ->
  (exists m, i = points "context" ++ m) /\
  exists d r1, declOf d = a /\ gives ctxP i d ss r1 /\ (forall q, blanks r q -> blanks r1 q).
Proof.
  intros a ss i r (u1 & s1 & t1 & m1 & T1 & (u2 & s2 & t2 & m2 & H2 & (n & s3 & t3 & m3 & H3 & (u4 & s4 & t4 & m4 & H4 &
    (u5 & s5 & t5 & m5 & T5 & (fs & s6 & t6 & m6 & H6 & (u7 & s7 & t7 & m7 & [-> B7] & (u8 & s8 & t8 & m8 & T8 & H & ->) & ->) & ->) & ->) & ->) & ->) & ->) & ->) N.
  split; [destruct T1 as [_ ->]; eauto|]. destruct (C_semicolon _ _ _ _ _ _ H N) as (-> & -> & S).
  destruct (S _ (DCtx (mkCtx n fs))) as (r1 & G & Q). exists (DCtx (mkCtx n fs)), r1. split; auto. split; auto.
  unfold ctxP. eapply gives_then; [atoms|]. eapply gives_then; [atoms|]. eapply gives_then; [atoms|].
  eapply gives_then; [atoms|]. eapply gives_then; [atoms|]. destruct (blanks_total m5) as [k Bk].
  eapply gives_seq; [apply sk_at; exact Bk|].
  eapply gives_then.
  { eapply C_ctxMembers; [exact H6| |exact Bk|exact B7]. destruct T8 as [_ ->]. eexists. split; [exact B7|reflexivity]. }
  cbn [app]. eapply gives_seq; [apply sk_at; eapply blanks_again; exact B7|].
  eapply gives_then; [atoms|]. exact G.
Qed.
Lemma F_ctxP : forall i, (forall m, i <> points "context" ++ m) -> fails ctxP i.
Proof. intros i H. unfold ctxP. apply fails_then, fails_lit. exact H. Qed.

Lemma C_StructDef : forall a ss i r, StructDef a ss i r -> (forall c, ahead r c -> c <> 59) ->
  head i = 115 /\ exists N, forall n, (N <= n)%nat ->
  exists d r1, declOf d = a /\ gives (structP n) i d ss r1 /\ (forall q, blanks r q -> blanks r1 q).
Proof.
  intros a ss i r (s & s1 & t1 & m & [k H] & K & ->) N. split; [eapply StructN_head; eauto|].
  exists k. intros n L. destruct (C_semicolon _ _ _ _ _ _ K N) as (-> & -> & S).
  destruct (S _ (DStruct s)) as (r1 & G & Q). exists (DStruct s), r1. split; auto. split; auto.
  unfold structP. eapply gives_then; [eapply C_StructN; eauto|]. exact G.
Qed.
Lemma F_structP : forall n i, head i <> 115 -> fails (structP n) i.
Proof. intros n i H. unfold structP. apply fails_then, structDecl_head. exact H. Qed.

Lemma C_ExternDecl : forall a ss i r, ExternDecl a ss i r -> head i = 101 /\
  exists d, declOf d = a /\ gives externP i d ss r.
Proof.
  intros a ss i r H. split; [destruct H as (u & s1 & s2 & m & (_ & ->) & _); reflexivity|].
  destruct H as (u1 & s1 & t1 & m1 & T1 & (u2 & s2 & t2 & m2 & H2 & (n & s3 & t3 & m3 & H3 & (c & s4 & t4 & m4 & H4 &
    (u5 & s5 & t5 & m5 & H5 & (u6 & s6 & t6 & m6 & T6 & (-> & -> & E) & ->) & ->) & ->) & ->) & ->) & ->). subst m6.
  exists (DStruct (mkStruct n c None)). split; auto. unfold externP.
  eapply gives_then; [atoms|]. eapply gives_then; [atoms|]. eapply gives_then; [apply C_StructName; exact H3|].
  eapply gives_then.
  { apply C_Contexts; [exact H4|]. intros x X. destruct H5 as [_ B]. destruct T6 as [_ ->].
    rewrite <- (ahead_fun _ _ _ X B). cbn. lia. }
  eapply gives_then; [atoms|]. eapply gives_then; [atoms|]. apply gives_ret.
Qed.
Lemma F_externP : forall i, head i <> 101 -> fails externP i.
Proof. intros i H. unfold externP. apply fails_then, fails_lit_head. exact H. Qed.
Lemma C_PragmaDecl : forall a ss i r, PragmaDecl a ss i r -> head i = 116 /\
  exists d, declOf d = a /\ gives pragmaP i d ss r.
Proof.
  intros a ss i r H. split; [destruct H as (u & s1 & s2 & m & (_ & ->) & _); reflexivity|].
  destruct H as (u1 & s1 & t1 & m1 & T1 & (u2 & s2 & t2 & m2 & H2 & (n & s3 & t3 & m3 & H3 & (u4 & s4 & t4 & m4 & H4 &
    (l & s5 & t5 & m5 & H5 & (u6 & s6 & t6 & m6 & H6 & (u7 & s7 & t7 & m7 & T7 & (-> & -> & E) & ->) & ->) & ->) & ->) & ->) & ->) & ->). subst m7.
  exists (DPragma (mkPragma n l)). split; auto. unfold pragmaP.
  do 4 (eapply gives_then; [atoms|]). eapply gives_then.
  { apply C_Identifiers; [exact H5|]. intros x X. destruct H6 as [_ B]. destruct T7 as [_ ->].
    rewrite <- (ahead_fun _ _ _ X B). cbn. lia. }
  do 2 (eapply gives_then; [atoms|]). apply gives_ret.
Qed.
Lemma F_pragmaP : forall i, head i <> 116 -> fails pragmaP i.
Proof. intros i H. unfold pragmaP. apply fails_then, fails_lit_head. exact H. Qed.

Lemma const_other : forall i, head i <> 99 -> fails constP i /\ fails ctxP i.
Proof.
  intros i H. split; [apply F_constP|apply F_ctxP]; intros m ->; apply H; reflexivity.
Qed.

Lemma Decl_ahead : forall a ss i r, Decl a ss i r -> forall c, ahead i c -> c <> 59.
Proof.
  intros a ss i r (u & s1 & s2 & m & [_ B] & H & _) c A. rewrite <- (ahead_fun _ _ _ A B).
  destruct H as [[[[H|H]|H]|H]|H].
  - apply C_ConstDecl in H. lia.
  - destruct H as (u1 & t1 & t2 & m1 & (_ & ->) & _). cbn. lia.
  - destruct H as (s & t1 & t2 & m1 & [k H] & _). apply StructN_head in H. lia.
  - apply C_ExternDecl in H. lia.
  - apply C_PragmaDecl in H. lia.
Qed.

Lemma C_Decl : forall a ss i r, Decl a ss i r -> (forall c, ahead r c -> c <> 59) ->
  exists N, forall n, (N <= n)%nat -> exists d, declOf d = a /\
  forall r2, blanks r r2 -> gives (declP n) i d ss r2.
Proof.
  intros a ss i r (u & s1 & s2 & m & [-> B] & H & ->) N. cbn [app].
  assert (K : exists N, forall n, (N <= n)%nat -> exists d r1, declOf d = a /\
    gives (constP <|> ctxP <|> structP n <|> externP <|> pragmaP) m d s2 r1 /\ (forall q, blanks r q -> blanks r1 q)).
  { destruct H as [[[[H|H]|H]|H]|H].
    - apply C_ConstDecl in H. destruct H as (_ & d & E & G). exists O. intros n _. exists d, r. split; auto. split; auto.
      apply gives_left. exact G.
    - destruct (C_ContextDecl _ _ _ _ H N) as ((k & ->) & d & r1 & E & G & Q). exists O. intros n _. exists d, r1.
      split; auto. split; auto. apply gives_right; [|apply gives_left; exact G].
      apply F_constP. discriminate.
    - destruct (C_StructDef _ _ _ _ H N) as (Hh & K & X). exists K. intros n L. destruct (X n L) as (d & r1 & E & G & Q).
      exists d, r1. split; auto. split; auto. destruct (const_other m) as [F1 F2]; [lia|].
      apply gives_right; auto. apply gives_right; auto. apply gives_left. exact G.
    - apply C_ExternDecl in H. destruct H as (Hh & d & E & G). exists O. intros n _. exists d, r. split; auto. split; auto.
      destruct (const_other m) as [F1 F2]; [lia|].
      apply gives_right; auto. apply gives_right; auto. apply gives_right; [apply F_structP; lia|]. apply gives_left. exact G.
    - apply C_PragmaDecl in H. destruct H as (Hh & d & E & G). exists O. intros n _. exists d, r. split; auto. split; auto.
      destruct (const_other m) as [F1 F2]; [lia|].
      apply gives_right; auto. apply gives_right; auto. apply gives_right; [apply F_structP; lia|].
      apply gives_right; [apply F_externP; lia|]. exact G. }
  destruct K as [K0 K]. exists K0. intros n L. destruct (K n L) as (d & r1 & E & G & Q). exists d. split; auto.
  intros r2 B2. unfold declP. eapply gives_seq; [apply sk_at; exact B|]. rewrite <- (app_nil_r s2).
  eapply gives_then; [exact G|]. eapply gives_seq; [apply sk_at, Q; exact B2|]. apply gives_ret.
Qed.

Lemma C_Decls : forall l ss i r, star Decl l ss i r -> blanks r [] ->
  (forall c, ahead i c -> c <> 59) /\
  exists N, forall n, (N <= n)%nat -> exists ds, map declOf ds = l /\
  forall i1, blanks i i1 -> gives (many (declP n)) i1 ds ss [].
Proof.
  intros l ss i r H. induction H as [i | a l s1 s2 i m r H1 H2 IH]; intros B.
  - split.
    + intros c A. rewrite <- (ahead_fun _ _ _ A B). cbn. lia.
    + exists O. intros n _. exists []. split; auto. intros i1 B1. rewrite (blanks_det _ _ _ B1 B).
      apply gives_many_nil; [eats|]. unfold declP. eapply fails_after; [apply sk_at; eapply blanks_again; exact B|].
      apply fails_then. destruct (const_other []) as [F1 F2]; [cbn; lia|].
      apply fails_or; auto. apply fails_or; auto. apply fails_or; [apply F_structP; cbn; lia|].
      apply fails_or; [apply F_externP; cbn; lia|apply F_pragmaP; cbn; lia].
  - destruct (IH B) as [A [N1 G1]]. split; [eapply Decl_ahead; eauto|].
    destruct (C_Decl _ _ _ _ H1 A) as [N2 G2]. exists (Nat.max N1 N2). intros n L.
    destruct (G1 n ltac:(lia)) as (ds & E1 & X1). destruct (G2 n ltac:(lia)) as (d & E2 & X2).
    exists (d :: ds). split; [cbn [map]; congruence|]. intros i1 B1. destruct (blanks_total m) as [m1 Bm].
    eapply gives_many_cons; [eats| |apply X1; exact Bm]. eapply gives_same; [exact B1|]. apply X2. exact Bm.
Qed.

Theorem fileP_complete : forall cs ds inline, File_ ds inline cs [] ->
  exists N, forall n, (N <= n)%nat ->
  fileP n (mkD cs [] []) = Done (SyntaxSpec.fileOf ds inline) (mkD [] inline []).
Proof.
  intros cs ds inline (l & s1 & s2 & m & H & (u & s3 & s4 & k & [-> B] & (-> & -> & E) & ->) & ->). subst k.
  rewrite !app_nil_r. destruct (C_Decls _ _ _ _ H B) as [_ [N G]]. exists N. intros n L.
  destruct (G n L) as (ds & E & X). destruct (blanks_total cs) as [i1 B1]. specialize (X i1 B1).
  unfold fileP. rewrite (andThen_eq _ _ _ _ _ _ _ (sk_at _ _ B1 [] [])). cbn [app].
  rewrite (andThen_eq _ _ _ _ _ _ _ (X [] [])). cbn [app].
  rewrite (andThen_eq _ _ _ _ _ _ _ (sk_at _ _ (blanks_again _ _ B) s1 [])). rewrite app_nil_r.
  cbn. rewrite fileOf_declOf, E. reflexivity.
Qed.
