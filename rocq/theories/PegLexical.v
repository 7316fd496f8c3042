(** The token functions of [PegDescent] compute the tokens of [SyntaxSpec]. *)
From Coq Require Import ZArith String Ascii List Bool Lia ZifyBool ZifyNat.
From Verif Require Import Base Ast PegModel PegGrammar PegEngine PegRunes PegDescent PegConsume SyntaxSpec.
Import ListNotations.
Open Scope string_scope.
Open Scope list_scope.
Open Scope Z_scope.

(** [p] fails on [i] and records nothing. *)
Definition fails {A} (p : P A) (i : list Z) : Prop := forall l e, p (mkD i l e) = Fail e.
Definition gives {A} (p : P A) (i : list Z) (a : A) (ss : list struct) (r : list Z) : Prop :=
  forall l e, p (mkD i l e) = Done a (mkD r (l ++ ss) e).

(** ** Combinators *)
Lemma gives_ret : forall A (a : A) i, gives (ret a) i a [] i.
Proof. intros A a i l e. rewrite app_nil_r. reflexivity. Qed.
Lemma gives_then : forall A B (p : P A) (k : A -> P B) i a s1 m b s2 r,
  gives p i a s1 m -> gives (k a) m b s2 r -> gives (andThen p k) i b (s1 ++ s2) r.
Proof. intros A B p k i a s1 m b s2 r H1 H2 l e. unfold andThen. rewrite H1, H2, app_assoc. reflexivity. Qed.
Lemma fails_then : forall A B (p : P A) (k : A -> P B) i, fails p i -> fails (andThen p k) i.
Proof. intros A B p k i H l e. unfold andThen. rewrite H. reflexivity. Qed.
Lemma fails_after : forall A B (p : P A) (k : A -> P B) i a s m,
  gives p i a s m -> fails (k a) m -> fails (andThen p k) i.
Proof. intros A B p k i a s m H1 H2 l e. unfold andThen. rewrite H1, H2. reflexivity. Qed.
Lemma gives_left : forall A (p q : P A) i a s r, gives p i a s r -> gives (p <|> q) i a s r.
Proof. intros A p q i a s r H l e. unfold orElse. rewrite H. reflexivity. Qed.
Lemma gives_right : forall A (p q : P A) i a s r, fails p i -> gives q i a s r -> gives (p <|> q) i a s r.
Proof. intros A p q i a s r H1 H2 l e. unfold orElse. rewrite H1. cbn [drest dling]. apply H2. Qed.
Lemma fails_or : forall A (p q : P A) i, fails p i -> fails q i -> fails (p <|> q) i.
Proof. intros A p q i H1 H2 l e. unfold orElse. rewrite H1. cbn [drest dling]. apply H2. Qed.
Lemma gives_some : forall A (p : P A) i a s r, gives p i a s r -> gives (opt p) i (Some a) s r.
Proof. intros A p i a s r H l e. unfold opt. rewrite H. reflexivity. Qed.
Lemma gives_none : forall A (p : P A) i, fails p i -> gives (opt p) i None [] i.
Proof. intros A p i H l e. unfold opt. rewrite H. cbn. rewrite app_nil_r. reflexivity. Qed.
Lemma gives_many_nil : forall A (p : P A) i, eatsSome p -> fails p i -> gives (many p) i [] [] i.
Proof. intros A p i E H l e. rewrite many_eq by auto. rewrite H. cbn. rewrite app_nil_r. reflexivity. Qed.
Lemma gives_many_cons : forall A (p : P A) i a s1 m l s2 r, eatsSome p ->
  gives p i a s1 m -> gives (many p) m l s2 r -> gives (many p) i (a :: l) (s1 ++ s2) r.
Proof.
  intros A p i a s1 m l s2 r E H1 H2 l0 e. rewrite many_eq by auto. rewrite H1, H2, app_assoc. reflexivity.
Qed.
(** The same where the first part declares nothing. *)
Lemma gives_seq : forall A B (p : P A) (k : A -> P B) i a m b s r,
  gives p i a [] m -> gives (k a) m b s r -> gives (andThen p k) i b s r.
Proof. intros A B p k i a m b s r H1 H2. apply (gives_then _ _ _ _ _ _ _ _ _ _ _ H1 H2). Qed.
Lemma gives_cons0 : forall A (p : P A) i a m l s r, eatsSome p ->
  gives p i a [] m -> gives (many p) m l s r -> gives (many p) i (a :: l) s r.
Proof. intros A p i a m l s r E H1 H2. apply (gives_many_cons _ _ _ _ _ _ _ _ _ E H1 H2). Qed.
Lemma gives_fun : forall A (p : P A) i a s r b s' r', gives p i a s r -> gives p i b s' r' ->
  a = b /\ s = s' /\ r = r'.
Proof.
  intros A p i a s r b s' r' H1 H2. specialize (H1 [] []). specialize (H2 [] []). rewrite H1 in H2.
  inversion H2; subst. auto.
Qed.
Lemma gives_fails : forall A (p : P A) i a s r, gives p i a s r -> fails p i -> False.
Proof. intros A p i a s r H1 H2. specialize (H1 [] []). rewrite H2 in H1. discriminate. Qed.
Lemma gives_void : forall A (p : P A) i a s r, gives p i a s r -> gives (void p) i tt s r.
Proof.
  intros A p i a s r H. unfold void. rewrite <- (app_nil_r s). eapply gives_then; [exact H|]. apply gives_ret.
Qed.
Lemma gives_notP : forall A (p : P A) i, fails p i -> gives (notP p) i tt [] i.
Proof. intros A p i H l e. unfold notP. rewrite H. cbn. rewrite app_nil_r. reflexivity. Qed.
Lemma fails_notP : forall A (p : P A) i a r, gives p i a [] r -> fails (notP p) i.
Proof. intros A p i a r H l e. unfold notP. rewrite H. reflexivity. Qed.
Lemma gives_texted : forall A (p : P A) t a r, gives p (t ++ r) a [] r -> gives (texted p) (t ++ r) t [] r.
Proof.
  intros A p t a r H l e. unfold texted. rewrite H. cbn [drest].
  rewrite app_length. replace (length t + length r - length r)%nat with (length t) by lia.
  rewrite firstn_app, firstn_all, Nat.sub_diag. cbn. rewrite app_nil_r. reflexivity.
Qed.
Lemma fails_texted : forall A (p : P A) i, fails p i -> fails (texted p) i.
Proof. intros A p i H l e. unfold texted. rewrite H. reflexivity. Qed.

(** ** Single characters and fixed texts *)
Lemma gives_lit : forall w r, gives (lit w) (points w ++ r) tt [] r.
Proof.
  intros w r l e. unfold lit. cbn [drest dling derrs].
  change (codes w) with (points w).
  assert (E : stripPrefix (points w) (points w ++ r) = Some r) by (apply stripPrefix_spec; reflexivity).
  rewrite E, app_nil_r. reflexivity.
Qed.
Lemma lit_or : forall w i, (exists r, i = points w ++ r) \/ ((forall r, i <> points w ++ r) /\ fails (lit w) i).
Proof.
  intros w i. destruct (stripPrefix (points w) i) as [r|] eqn:E.
  - left. exists r. apply stripPrefix_spec. exact E.
  - right. split.
    + intros r H. apply stripPrefix_spec in H. congruence.
    + intros l e. unfold lit. cbn [drest dling derrs]. change (codes w) with (points w). rewrite E. reflexivity.
Qed.
Lemma fails_lit : forall w i, (forall r, i <> points w ++ r) -> fails (lit w) i.
Proof. intros w i H. destruct (lit_or w i) as [[r E]|[_ F]]; auto. exfalso. eapply H; eauto. Qed.
Lemma fails_lit_head : forall c w i, hd (-1) i <> Z.of_N (N_of_ascii c) -> fails (lit (String c w)) i.
Proof. intros c w i H. apply fails_lit. intros r E. subst i. apply H. reflexivity. Qed.

Lemma gives_cls : forall chars ranges c r, inClass chars ranges c = true ->
  gives (cls chars ranges) (c :: r) c [] r.
Proof. intros chars ranges c r H l e. unfold cls. cbn. rewrite H, app_nil_r. reflexivity. Qed.
Lemma fails_cls : forall chars ranges i, stops (inClass chars ranges) i -> fails (cls chars ranges) i.
Proof. intros chars ranges [|c r] H l e; unfold cls; cbn; auto. rewrite H. reflexivity. Qed.
Lemma gives_any : forall c r, gives any (c :: r) c [] r.
Proof. intros c r l e. cbn. rewrite app_nil_r. reflexivity. Qed.
Lemma fails_any : fails any [].
Proof. intros l e. reflexivity. Qed.

Lemma many_cls : forall chars ranges cs r, forallb (inClass chars ranges) cs = true ->
  stops (inClass chars ranges) r -> gives (many (cls chars ranges)) (cs ++ r) cs [] r.
Proof.
  induction cs as [|c cs IH]; intros r H S.
  - apply gives_many_nil; [eats|]. apply fails_cls; auto.
  - cbn in H. apply andb_prop in H. destruct H as [Hc H].
    eapply gives_cons0; [eats|apply gives_cls; auto|]. apply IH; auto.
Qed.

(** The longest prefix in a class. *)
Lemma span : forall (f : Z -> bool) i, exists cs r, i = cs ++ r /\ forallb f cs = true /\ stops f r.
Proof.
  intros f. induction i as [|c i (cs & r & E & F & S)].
  - exists [], []. cbn. auto.
  - destruct (f c) eqn:Hc.
    + exists (c :: cs), r. cbn. rewrite Hc, F, E. auto.
    + exists [], (c :: i). cbn. auto.
Qed.

Lemma forallb_ext : forall A (f h : A -> bool) l, (forall x, f x = h x) -> forallb f l = forallb h l.
Proof. intros A f h l H. induction l; cbn; congruence. Qed.
Lemma stops_ext : forall f h r, (forall x, f x = h x) -> stops f r -> stops h r.
Proof. intros f h [|c r] H; cbn; auto. rewrite H. auto. Qed.

(** ** Words *)
Section Words.
  Variables (chars1 chars2 : list Z) (ranges1 ranges2 : list (Z * Z)) (first later : Z -> bool).
  Hypothesis H1 : forall c, inClass chars1 ranges1 c = first c.
  Hypothesis H2 : forall c, inClass chars2 ranges2 c = later c.
  Let p : P string :=
    t <-- texted (cls chars1 ranges1 ;;; many (cls chars2 ranges2) ;;; ret tt) ;; ret (nameOf t).

  Lemma word_gives : forall n ss i r, word first later n ss i r -> gives p i n ss r.
  Proof.
    intros n ss i r (-> & c & cs & F & L & S & -> & ->). unfold p.
 eapply gives_seq; [|apply gives_ret].
    change (c :: cs ++ r) with ((c :: cs) ++ r). eapply gives_texted.
    cbn [app].    eapply gives_seq; [apply gives_cls; rewrite H1; auto|].
    eapply gives_seq; [apply many_cls|apply gives_ret].
    - rewrite (forallb_ext _ _ later); auto.
    - eapply stops_ext; [|exact S]. auto.
  Qed.
  Lemma word_fails : forall i, stops first i -> fails p i.
  Proof.
    intros i S. unfold p. apply fails_then, fails_texted, fails_then, fails_cls.
    eapply stops_ext; [|exact S]. auto.
  Qed.
  Lemma word_or : forall i, (exists n r, word first later n [] i r) \/ stops first i.
  Proof.
    intros [|c i]; [right; exact I|]. destruct (first c) eqn:F; [|right; exact F]. left.
    destruct (span later i) as (cs & r & -> & L & S).
    exists (named (c :: cs)), r. split; auto. exists c, cs. auto.
  Qed.
End Words.

Lemma class_ident1 : forall c, inClass [95] [(97, 122); (65, 90)] c = first_ c.
Proof. intros c. unfold inClass, first_, lower, upper, between. cbn [existsb fst snd]. lia. Qed.
Lemma class_ident2 : forall c, inClass [95] [(97, 122); (65, 90); (48, 57)] c = later_ c.
Proof. intros c. unfold inClass, later_, first_, lower, upper, digit10, between. cbn [existsb fst snd]. lia. Qed.
Lemma class_const1 : forall c, inClass [95] [(65, 90)] c = upper c.
Proof. intros c. unfold inClass, upper, between. cbn [existsb fst snd]. lia. Qed.
Lemma class_const2 : forall c, inClass [95] [(65, 90); (48, 57)] c = upperLater c.
Proof. intros c. unfold inClass, upperLater, upper, digit10, between. cbn [existsb fst snd]. lia. Qed.

Lemma ident_gives : forall n ss i r, Identifier n ss i r -> gives ident i n ss r.
Proof. apply word_gives; [apply class_ident1|apply class_ident2]. Qed.
Lemma ident_fails : forall i, stops first_ i -> fails ident i.
Proof. eapply word_fails. apply class_ident1. Qed.
Lemma ident_or : forall i, (exists n r, Identifier n [] i r) \/ stops first_ i.
Proof. apply word_or. Qed.
Lemma cident_gives : forall n ss i r, ConstIdentifier n ss i r -> gives cident i n ss r.
Proof. apply word_gives; [apply class_const1|apply class_const2]. Qed.
Lemma cident_fails : forall i, stops upper i -> fails cident i.
Proof. eapply word_fails. apply class_const1. Qed.
Lemma cident_or : forall i, (exists n r, ConstIdentifier n [] i r) \/ stops upper i.
Proof. apply word_or. Qed.

(** ** Blanks *)
Definition closes (i : list Z) : Prop := exists r, i = points "*/" ++ r.

Lemma until : forall w body r, (forall a b, body <> [] -> body = a ++ b -> b <> [] -> fails (lit w) (b ++ r)) ->
  gives (lit w) r tt [] (skipn (length (points w)) r) \/ r = [] ->
  gives (many (notP (lit w) ;;; any)) (body ++ r) body [] r.
Proof.
  intros w body r. induction body as [|c body IH]; intros H E.
  - apply gives_many_nil; [eats|]. destruct E as [E | ->].
    + apply fails_then. eapply fails_notP. exact E.
    + destruct (lit_or w []) as [[x X]|[_ F]].
      * intros l e. unfold andThen, notP.
        assert (W : points w = []) by (destruct (points w); [auto|discriminate]).
        unfold lit. change (codes w) with (points w). rewrite W. reflexivity.
      * eapply fails_after; [apply gives_notP; exact F|]. apply fails_any.
  - cbn [app].
    eapply gives_cons0; [eats| |].
    +      eapply gives_seq; [apply gives_notP|apply gives_any].
      apply (H [] (c :: body)); [discriminate|reflexivity|discriminate].
    + apply IH; auto. intros a b N Eb Nb. apply (H (c :: a) b); [discriminate|rewrite Eb; reflexivity|auto].
Qed.

(** The first occurrence of the closing mark. *)
Lemma find_close : forall i,
  (exists body r, i = body ++ points "*/" ++ r /\ (forall a b, body ++ points "*" <> a ++ points "*/" ++ b)) \/
  (forall a b, i <> a ++ points "*/" ++ b).
Proof.
  induction i as [|c i IH].
  - right. intros [|x a] b; discriminate.
  - destruct (lit_or "*/" (c :: i)) as [[r E]|[N _]].
    + left. exists [], r. split; auto. intros [|x [|y a]] b; discriminate.
    + destruct IH as [(body & r & -> & H)|H].
      * left. exists (c :: body), r. split; auto. intros a b E. destruct a as [|x a].
        -- cbn in E. inversion E as [[Ec E2]]. destruct body as [|y body].
           ++ discriminate.
           ++ cbn in E2. inversion E2; subst. eapply N. reflexivity.
        -- injection E; intros E3 _. exact (H a b E3).
      * right. intros [|x a] b E.
        -- eapply N. exact E.
        -- injection E; intros E3 _. exact (H a b E3).
Qed.

Lemma block_gives : forall body r, (forall a b, body ++ points "*" <> a ++ points "*/" ++ b) ->
  gives multiLine (points "/*" ++ body ++ points "*/" ++ r) tt [] r.
Proof.
  intros body r H. unfold multiLine.
 eapply gives_seq; [apply gives_lit|].
 eapply gives_seq.
  - apply until.
    + intros a b _ E Nb. apply fails_lit. intros x X. destruct b as [|y b]; [congruence|].
      cbn in X. inversion X; subst y. destruct b as [|z b].
      * cbn in H2. inversion H2.
      * cbn in H2. inversion H2; subst z. eapply (H a (b ++ points "*")). rewrite E, <- app_assoc. reflexivity.
    + left. apply gives_lit.
  - eapply gives_seq; [apply gives_lit|]. apply gives_ret.
Qed.

Lemma line_gives : forall body r, ~ In 10 body -> hd 10 r = 10 ->
  gives singleLine (points "//" ++ body ++ r) tt [] r.
Proof.
  intros body r H Hr. unfold singleLine.
 eapply gives_seq; [apply gives_lit|].
 eapply gives_seq; [|apply gives_ret].
  apply until.
  - intros a b _ E Nb. apply fails_lit. intros x X. destruct b as [|y b]; [congruence|].
    cbn in X. inversion X; subst y. apply H. rewrite E. apply in_or_app. right. left. reflexivity.
  - destruct r as [|c r]; auto. left. cbn in Hr. subst c. apply (gives_lit newline).
Qed.

Lemma skip1_gives : forall i r, blank i r -> gives skip1 i tt [] r.
Proof.
  intros i r H. unfold skip1. destruct H as [c r H | body r H | body r H Hr].
  - cbn [In] in H. assert (C : c = 10 \/ inClass [32; 9; 13] [] c = true).
    { unfold inClass. cbn [existsb]. lia. }
    destruct C as [-> | C].
    + apply gives_right; [|apply gives_left].
      * apply fails_then, fails_cls. reflexivity.
      * apply (gives_lit newline).
    + apply gives_left. eapply gives_void. apply gives_cls. exact C.
  - apply gives_right; [|apply gives_right].
    + apply fails_then, fails_cls. reflexivity.
    + apply fails_lit. discriminate.
    + unfold comment. apply gives_left. apply block_gives; auto.
  - apply gives_right; [|apply gives_right].
    + apply fails_then, fails_cls. reflexivity.
    + apply fails_lit. discriminate.
    + unfold comment. apply gives_right; [|apply line_gives; auto].
      apply fails_then, fails_lit. discriminate.
Qed.

Lemma skip1_or : forall i, (exists r, blank i r) \/ ((forall r, ~ blank i r) /\ fails skip1 i).
Proof.
  intros i. assert (D : (exists r, blank i r) \/ fails skip1 i).
  { destruct i as [|c i].
    - right. unfold skip1. apply fails_or; [apply fails_then, fails_cls; exact I|].
      apply fails_or; [apply fails_lit; discriminate|].
      apply fails_or; apply fails_then, fails_lit; discriminate.
    - destruct (in_dec Z.eq_dec c [32; 9; 13; 10]) as [Hc|Hc]; [left; eexists; apply blank_char; exact Hc|].
      destruct (lit_or "/*" (c :: i)) as [[m E]|[N F]].
      + destruct (find_close m) as [(body & r & -> & H)|H].
        * left. exists r. rewrite E. apply blank_block; auto.
        * right. rewrite E. unfold skip1. apply fails_or; [apply fails_then, fails_cls; reflexivity|].
          apply fails_or; [apply fails_lit; discriminate|]. apply fails_or; [|apply fails_then, fails_lit; discriminate].
          assert (U : gives (many (notP (lit "*/") ;;; any)) (m ++ []) m [] []).
          { apply until; [|auto].
            intros a b _ E2 _. rewrite app_nil_r. apply fails_lit. intros x X. apply (H a x). rewrite E2, X. reflexivity. }
          rewrite app_nil_r in U.
          unfold multiLine. eapply fails_after; [apply gives_lit|]. eapply fails_after; [exact U|].
          apply fails_then, fails_lit. discriminate.
      + destruct (lit_or "//" (c :: i)) as [[m E]|[N2 F2]].
        * left. destruct (span (fun c => negb (c =? 10)) m) as (body & r & -> & L & S).
          exists r. rewrite E. apply blank_line.
          -- intros X. rewrite forallb_forall in L. apply L in X. discriminate.
          -- destruct r as [|x r]; auto. cbn in S |- *. lia.
        * right. unfold skip1. apply fails_or.
          { apply fails_then, fails_cls. cbn [In stops] in *. unfold inClass. cbn [existsb]. lia. }
          apply fails_or.
          { apply fails_lit. intros r X. inversion X; subst. apply Hc. cbn. auto. }
          apply fails_or; apply fails_then; assumption. }
  destruct D as [D|D]; auto. right. split; auto. intros r B. eapply gives_fails; [apply skip1_gives; exact B|exact D].
Qed.

Lemma many_skip : forall i r, blanks i r -> exists l, gives (many skip1) i l [] r.
Proof.
  induction 1 as [r H | i m r B H (l & IH)].
  - exists []. apply gives_many_nil; [eats|]. destruct (skip1_or r) as [[r' X]|[_ X]]; auto. exfalso. eapply H; eauto.
  - exists (tt :: l).    eapply gives_cons0; [eats|apply skip1_gives; exact B|exact IH].
Qed.
Lemma sk_gives : forall u ss i r, gap u ss i r -> gives sk i u ss r.
Proof.
  intros [] ss i r [-> H]. apply many_skip in H. destruct H as [l H]. unfold sk. eapply gives_void. exact H.
Qed.
Lemma sk1_gives : forall u ss i r, gap1 u ss i r -> gives sk1 i u ss r.
Proof.
  intros [] ss i r [-> (m & B & H)]. apply many_skip in H. destruct H as [l H]. unfold sk1.
 eapply gives_seq; [apply skip1_gives; exact B|].
 eapply gives_seq; [exact H|]. apply gives_ret.
Qed.

Lemma blank_shorter : forall i r, blank i r -> (length r < length i)%nat.
Proof.
  intros i r H. destruct H; cbn [length]; rewrite ?app_length; cbn; rewrite ?app_length; cbn; try lia.
Qed.
Lemma blanks_total : forall i, exists r, blanks i r.
Proof.
  intros i. remember (length i) as n eqn:Hn. assert (H : (length i <= n)%nat) by lia. clear Hn.
  revert i H. induction n as [|n IH]; intros i H.
  - destruct i; [|cbn in H; lia]. exists []. apply blanks_end. intros r B. inversion B.
  - destruct (skip1_or i) as [[m B]|[N _]].
    + pose proof (blank_shorter _ _ B). destruct (IH m ltac:(lia)) as [r R]. exists r. eapply blanks_more; eauto.
    + exists i. apply blanks_end. exact N.
Qed.
Lemma sk1_fails : forall i, (forall r, ~ blank i r) -> fails sk1 i.
Proof.
  intros i H. unfold sk1. apply fails_then. destruct (skip1_or i) as [[r B]|[_ F]]; auto.
  exfalso. eapply H; eauto.
Qed.
Lemma blank_det : forall i r r', blank i r -> blank i r' -> r = r'.
Proof.
  intros i r r' H1 H2. eapply gives_fun; [apply skip1_gives; exact H1|apply skip1_gives; exact H2].
Qed.
Lemma blanks_det : forall i r r', blanks i r -> blanks i r' -> r = r'.
Proof.
  intros i r r' H1 H2. assert (G : forall r, blanks i r -> gives sk i tt [] r) by (intros; apply sk_gives; split; auto).
  destruct (gives_fun _ _ _ _ _ _ _ _ _ (G _ H1) (G _ H2)) as (_ & _ & E). exact E.
Qed.
Lemma blanks_stop : forall i r, blanks i r -> forall r', ~ blank r r'.
Proof. induction 1; auto. Qed.
Lemma blanks_same : forall r m, (forall r', ~ blank r r') -> blanks r m -> m = r.
Proof. intros r m H B. destruct B; auto. exfalso. eapply H; eauto. Qed.

(** ** Integer literals *)
Lemma fold_grows : forall base ds n, 2 <= base -> 0 <= n -> Forall (fun c => 0 <= digitValue c) ds ->
  n <= fold_left (fun n c => n * base + digitValue c) ds n.
Proof.
  intros base ds. induction ds as [|c ds IH]; intros n Hb Hn F; cbn [fold_left]; [lia|].
  inversion F as [|x y Hc F']; subst. specialize (IH (n * base + digitValue c) Hb ltac:(nia) F'). nia.
Qed.

Lemma digits_loop : forall base ds n, 2 <= base -> 0 <= n <= max64 ->
  Forall (fun c => digit (octet c) = Some (digitValue c) /\ 0 <= digitValue c < base) ds ->
  let v := fold_left (fun n c => n * base + digitValue c) ds n in
  digitsLoop base n (fromCodes ds) = if v <=? max64 then (v, None) else (max64, Some ERange).
Proof.
  intros base ds. induction ds as [|c ds IH]; intros n Hb Hn F; cbv zeta.
  - cbn [fold_left fromCodes map digitsLoop]. destruct (n <=? max64) eqn:E; auto. lia.
  - inversion F as [|x y [Hc Hd] F']; subst. cbn [fold_left].
    change (fromCodes (c :: ds)) with (octet c :: fromCodes ds). cbn [digitsLoop].
    rewrite Hc. destruct (base <=? digitValue c) eqn:E1; [lia|].
    assert (G : forall n, 0 <= n -> n <= fold_left (fun n c => n * base + digitValue c) ds n).
    { intros n0 Hn0. apply fold_grows; auto. eapply Forall_impl; [|exact F']. cbn. intros; lia. }
    pose proof (G (n * base + digitValue c) ltac:(nia)) as G1.
    destruct (max64 / base + 1 <=? n) eqn:E2.
    + assert (max64 < n * base).
      { assert (max64 < (max64 / base + 1) * base).
        { pose proof (Z.div_mod max64 base ltac:(lia)) as X.
          pose proof (Z.mod_pos_bound max64 base ltac:(lia)). nia. }
        nia. }
      destruct (fold_left _ ds _ <=? max64) eqn:E3; auto. lia.
    + assert (n * base <= max64).
      { assert (n <= max64 / base) by lia.
        pose proof (Z.mul_div_le max64 base ltac:(lia)). nia. }
      destruct (Z_le_gt_dec (n * base + digitValue c) max64) as [Hle|Hgt].
      * assert (U : u64 (n * base + digitValue c) = n * base + digitValue c).
        { unfold u64, two64, max64 in *. rewrite Z.mod_small; lia. }
        rewrite U. destruct ((n * base + digitValue c <? n * base) || (max64 <? n * base + digitValue c)) eqn:E4; [lia|].
        apply IH; auto. nia.
      * assert (U : u64 (n * base + digitValue c) < n * base).
        { unfold u64.
          assert (Y : digitValue c < 2 ^ 64 \/ two64 <= digitValue c) by (unfold two64; lia).
          destruct Y as [Y|Y].
          - replace (n * base + digitValue c) with ((n * base + digitValue c - two64) + 1 * two64) by lia.
            rewrite Z_mod_plus_full. unfold two64, max64 in *. rewrite Z.mod_small; lia.
          - exfalso. (* a digit is less than 36 *)
            unfold digit in Hc. destruct (inR 48 57 (byte (octet c))) eqn:R1.
            + inversion Hc. unfold inR, two64 in *. lia.
            + destruct (inR 97 122 (byte (octet c))) eqn:R2.
              * inversion Hc. unfold inR, two64 in *. lia.
              * destruct (inR 65 90 (byte (octet c))) eqn:R3; inversion Hc. unfold inR, two64 in *. lia. }
        destruct ((u64 (n * base + digitValue c) <? n * base) || (max64 <? u64 (n * base + digitValue c))) eqn:E4; [|lia].
        destruct (fold_left _ ds _ <=? max64) eqn:E3; auto. lia.
Qed.

Lemma byte_octet' : forall c, 0 <= c < 256 -> byte (octet c) = c.
Proof. intros b H. unfold byte, octet. rewrite N_ascii_embedding by lia. lia. Qed.
Lemma octet_digit : forall c, digit10 c = true \/ between 97 102 c = true \/ between 65 70 c = true ->
  digit (octet c) = Some (digitValue c).
Proof.
  intros c H. unfold digit. cbv zeta. unfold digit10, between in H. rewrite byte_octet' by lia.
  unfold digitValue, digit10, lower, between, inR.
  destruct ((48 <=? c) && (c <=? 57)) eqn:E1; auto.
  destruct ((97 <=? c) && (c <=? 122)) eqn:E2; auto.
  destruct ((65 <=? c) && (c <=? 90)) eqn:E3; auto. lia.
Qed.
Lemma class_value : forall c,
  (digit8 c = true -> digit (octet c) = Some (digitValue c) /\ 0 <= digitValue c < 8) /\
  (digit10 c = true -> digit (octet c) = Some (digitValue c) /\ 0 <= digitValue c < 10) /\
  (digit16 c = true -> digit (octet c) = Some (digitValue c) /\ 0 <= digitValue c < 16).
Proof.
  intros c. unfold digit8, digit16. split; [|split]; intros H.
  - split; [apply octet_digit; left; unfold digit10, between in *; lia|].
    unfold digitValue, digit10, between in *. destruct ((48 <=? c) && (c <=? 57)) eqn:E; lia.
  - split; [apply octet_digit; auto|].
    unfold digitValue, digit10, between in *. destruct ((48 <=? c) && (c <=? 57)) eqn:E; lia.
  - split; [apply octet_digit; unfold digit10, between in *; lia|].
    unfold digitValue, digit10, lower, between in *. destruct ((48 <=? c) && (c <=? 57)) eqn:E; [lia|].
    destruct ((97 <=? c) && (c <=? 122)) eqn:E1; lia.
Qed.

(** The value of a well-formed literal text. *)
Definition numberText (base : Z) (ds : list Z) : list Z :=
  if base =? 16 then points "0x" ++ ds else if base =? 8 then points "0" ++ ds else ds.
Definition classOf (base : Z) : Z -> bool := if base =? 16 then digit16 else if base =? 8 then digit8 else digit10.

Lemma parse_number : forall base ds, base = 16 \/ base = 8 \/ (base = 10 /\ hd 0 ds <> 48) ->
  ds <> [] -> forallb (classOf base) ds = true ->
  ParseInt (fromCodes (numberText base ds)) =
    if valueOf base ds <? 2 ^ 63 then (valueOf base ds, None) else (two63 - 1, Some ERange).
Proof.
  intros base ds Hb Hds F.
  assert (L : digitsLoop base 0 (fromCodes ds) =
              if valueOf base ds <=? max64 then (valueOf base ds, None) else (max64, Some ERange)).
  { apply (digits_loop base ds 0); [lia|unfold max64; lia|].
    apply Forall_forall. intros c I. rewrite forallb_forall in F. apply F in I.
    destruct (class_value c) as (C8 & C10 & C16).
    destruct Hb as [-> | [-> | [-> _]]]; cbn in I; auto. }
  assert (K : ParseInt (fromCodes (numberText base ds)) =
    match digitsLoop base 0 (fromCodes ds) with
    | (_, Some ESyntax) => (0, Some ESyntax)
    | (un, er) => if two63 <=? un then (two63 - 1, Some ERange) else (un, er)
    end).
  { destruct ds as [|c ds]; [congruence|]. cbn [forallb] in F. apply andb_prop in F. destruct F as [Fc F].
    destruct Hb as [-> | [-> | [-> Hh]]].
    - reflexivity.
    - change (classOf 8 c) with (digit8 c) in Fc.
      change (fromCodes (numberText 8 (c :: ds))) with (octet 48 :: octet c :: fromCodes ds).
      unfold ParseInt. change (byte (octet 48) =? 48) with true. cbv iota.
      assert (Bc : byte (octet c) = c) by (apply byte_octet'; unfold digit8, between in Fc; lia).
      rewrite Bc.
      replace ((c =? 120) || (c =? 88)) with false by (unfold digit8, between in Fc; lia).
      change (fromCodes (c :: ds)) with (octet c :: fromCodes ds).
      destruct (fromCodes ds); reflexivity.
    - change (classOf 10 c) with (digit10 c) in Fc. cbn [hd] in Hh.
      change (numberText 10 (c :: ds)) with (c :: ds).
      change (fromCodes (c :: ds)) with (octet c :: fromCodes ds).
      unfold ParseInt.
      assert (Bc : byte (octet c) = c) by (apply byte_octet'; unfold digit10, between in Fc; lia).
      rewrite Bc. replace (c =? 48) with false by lia. reflexivity. }
  rewrite K, L. unfold two63, max64 in *.
  destruct (valueOf base ds <=? 18446744073709551615) eqn:E1;
    destruct (valueOf base ds <? 2 ^ 63) eqn:E2; try lia.
  - destruct (9223372036854775808 <=? valueOf base ds) eqn:E3; auto. lia.
  - destruct (9223372036854775808 <=? valueOf base ds) eqn:E3; auto. lia.
  - reflexivity.
Qed.

Definition number : P (list Z) := texted (hex <|> octal <|> decimal).

Lemma class_dec : forall c, inClass [] [(48, 57)] c = digit10 c.
Proof. intros c. unfold inClass, digit10, between. cbn [existsb fst snd]. lia. Qed.
Lemma class_hex : forall c, inClass [] [(48, 57); (97, 102); (65, 70)] c = digit16 c.
Proof. intros c. unfold inClass, digit16, digit10, between. cbn [existsb fst snd]. lia. Qed.
Lemma class_oct : forall c, inClass [] [(48, 55)] c = digit8 c.
Proof. intros c. unfold inClass, digit8, between. cbn [existsb fst snd]. lia. Qed.

Lemma some1_gives : forall chars ranges class ds i r, (forall c, inClass chars ranges c = class c) ->
  digits class ds i r -> gives (some1 (cls chars ranges)) i tt [] r.
Proof.
  intros chars ranges class ds i r H (N & F & S & ->). destruct ds as [|c ds]; [congruence|].
  cbn [forallb] in F. apply andb_prop in F. destruct F as [Fc F]. unfold some1. cbn [app].
  eapply gives_seq; [apply gives_cls; rewrite H; auto|].
  eapply gives_seq; [apply many_cls|apply gives_ret].
  - rewrite (forallb_ext _ _ class); auto.
  - eapply stops_ext; [|exact S]. auto.
Qed.
Lemma some1_fails : forall chars ranges class i, (forall c, inClass chars ranges c = class c) ->
  stops class i -> fails (some1 (cls chars ranges)) i.
Proof.
  intros chars ranges class i H S. unfold some1. apply fails_then, fails_cls.
  eapply stops_ext; [|exact S]. auto.
Qed.

Lemma hex_gives : forall ds m r, digits digit16 ds m r -> gives hex (points "0x" ++ m) tt [] r.
Proof.
  intros ds m r H. unfold hex. eapply gives_seq; [apply gives_lit|].
  eapply gives_seq; [|apply gives_ret]. eapply some1_gives; [apply class_hex|exact H].
Qed.
Lemma octal_gives : forall ds m r, digits digit8 ds m r -> gives octal (points "0" ++ m) tt [] r.
Proof.
  intros ds m r H. unfold octal. eapply gives_seq; [apply gives_lit|].
  eapply gives_seq; [|apply gives_ret]. eapply some1_gives; [apply class_oct|exact H].
Qed.
Lemma hex_fails : forall i, ~ (exists h m, i = points "0x" ++ h :: m /\ digit16 h = true) -> fails hex i.
Proof.
  intros i H. unfold hex. destruct (lit_or "0x" i) as [[m ->]|[_ F]]; [|apply fails_then; auto].
  eapply fails_after; [apply gives_lit|]. apply fails_then. eapply some1_fails; [apply class_hex|].
  destruct m as [|h m]; [exact I|]. cbn. destruct (digit16 h) eqn:E; auto. exfalso. eauto.
Qed.
Lemma octal_fails : forall i, ~ (exists h m, i = points "0" ++ h :: m /\ digit8 h = true) -> fails octal i.
Proof.
  intros i H. unfold octal. destruct (lit_or "0" i) as [[m ->]|[_ F]]; [|apply fails_then; auto].
  eapply fails_after; [apply gives_lit|]. apply fails_then. eapply some1_fails; [apply class_oct|].
  destruct m as [|h m]; [exact I|]. cbn. destruct (digit8 h) eqn:E; auto. exfalso. eauto.
Qed.
Lemma decimal_gives : forall ds i r, digits digit10 ds i r -> gives decimal i tt [] r.
Proof. intros ds i r H. eapply some1_gives; [apply class_dec|exact H]. Qed.

Lemma number_hex : forall ds m r, digits digit16 ds m r -> gives number (points "0x" ++ m) (points "0x" ++ ds) [] r.
Proof.
  intros ds m r H. pose proof H as (_ & _ & _ & ->). rewrite app_assoc. unfold number. eapply gives_texted.
  apply gives_left. rewrite <- app_assoc. eapply hex_gives; eauto.
Qed.
Lemma number_oct : forall ds m r, digits digit8 ds m r -> gives number (points "0" ++ m) (points "0" ++ ds) [] r.
Proof.
  intros ds m r H. pose proof H as (Nd & F & _ & ->). rewrite app_assoc. unfold number. eapply gives_texted.
  rewrite <- app_assoc. apply gives_right; [|apply gives_left; eapply octal_gives; eauto].
  apply hex_fails. intros (h & m & E & _). destruct ds as [|c ds]; [congruence|].
  cbn in E. inversion E; subst. cbn in F. discriminate.
Qed.
Lemma number_dec : forall ds i r, digits digit10 ds i r ->
  ~ (exists h m, i = points "0x" ++ h :: m /\ digit16 h = true) ->
  ~ (exists h m, i = points "0" ++ h :: m /\ digit8 h = true) -> gives number i ds [] r.
Proof.
  intros ds i r H H1 H2. pose proof H as (_ & _ & _ & ->). unfold number. eapply gives_texted.
  apply gives_right; [apply hex_fails; auto|]. apply gives_right; [apply octal_fails; auto|].
  eapply decimal_gives; eauto.
Qed.

Lemma intLit_ok : forall i t r v, gives number i t [] r -> ParseInt (fromCodes t) = (v, None) ->
  gives intLit i v [] r.
Proof.
  intros i t r v H E. unfold intLit. fold number. eapply gives_seq; [exact H|]. rewrite E. cbn [fst snd].
  intros l e. cbn. rewrite app_nil_r. reflexivity.
Qed.
Lemma intLit_err : forall i t r v x, gives number i t [] r -> ParseInt (fromCodes t) = (v, Some x) ->
  forall l e, intLit (mkD i l e) = Done v (mkD r l (e ++ [EAction x])).
Proof.
  intros i t r v x H E l e. unfold intLit. fold number. unfold andThen. rewrite H, E. cbn.
  rewrite app_nil_r. reflexivity.
Qed.
Lemma intLit_fails : forall i, stops digit10 i -> fails intLit i.
Proof.
  intros i S. unfold intLit. apply fails_then, fails_texted.
  apply fails_or; [|apply fails_or].
  - apply hex_fails. intros (h & m & -> & _). discriminate.
  - apply octal_fails. intros (h & m & -> & _). discriminate.
  - eapply some1_fails; [apply class_dec|exact S].
Qed.

Lemma points0 : points "0" = [48]. Proof. reflexivity. Qed.
Lemma points0x : points "0x" = [48; 120]. Proof. reflexivity. Qed.

Lemma intLit_gives : forall v ss i r, Literal v ss i r -> gives intLit i v ss r.
Proof.
  intros v ss i r (-> & Hv & [(ds & m & -> & D & ->) | [(ds & m & -> & D & ->) | [(ds & Hh & D & ->) | (-> & S & -> & Hx)]]]).
  - eapply intLit_ok; [eapply number_hex; exact D|]. destruct D as (N & F & _).
    change (points "0x" ++ ds) with (numberText 16 ds). rewrite parse_number by auto.
    replace (valueOf 16 ds <? 2 ^ 63) with true by lia. reflexivity.
  - eapply intLit_ok; [eapply number_oct; exact D|]. destruct D as (N & F & _).
    change (points "0" ++ ds) with (numberText 8 ds). rewrite parse_number by auto.
    replace (valueOf 8 ds <? 2 ^ 63) with true by lia. reflexivity.
  - pose proof D as (N & F & _ & E). assert (Hi : forall m, i <> 48 :: m).
    { intros m X. rewrite X in E. destruct ds; [congruence|]. inversion E; subst. apply Hh. reflexivity. }
    eapply intLit_ok; [apply number_dec; [exact D| |]|].
    + intros (h & m & X & _). eapply Hi. exact X.
    + intros (h & m & X & _). eapply Hi. exact X.
    + change ds with (numberText 10 ds) at 1. rewrite parse_number by auto.
      replace (valueOf 10 ds <? 2 ^ 63) with true by lia. reflexivity.
  - eapply intLit_ok with (t := [48]); [apply number_dec|reflexivity].
    + repeat split; auto. discriminate.
    + intros (h & m & X & Y). apply Hx. cbn in X. inversion X. exists h, m. auto.
    + intros (h & m & X & Y). cbn in X. inversion X; subst r. cbn in S.
      unfold digit10, digit8, between in *. lia.
Qed.

(** What is not a literal but starts like one records an error. *)
Lemma intLit_or : forall i,
  (exists v r, Literal v [] i r) \/
  (exists v r x, forall l e, intLit (mkD i l e) = Done v (mkD r l (e ++ [EAction x]))) \/
  stops digit10 i.
Proof.
  intros i.
  assert (DX : forall class m, stops class m \/ exists ds r, digits class ds m r).
  { intros class [|c m]; [left; exact I|]. destruct (class c) eqn:E; [|left; exact E].
    right. destruct (span class m) as (cs & r & -> & F & S). exists (c :: cs), r.
    repeat split; auto; [discriminate|]. cbn. rewrite E, F. reflexivity. }
  destruct (lit_or "0x" i) as [[m E]|[N _]].
  { destruct (DX digit16 m) as [S|(ds & r & D)].
    - left. exists 0, (points "x" ++ m). split; auto. split; [lia|]. right. right. right.
      repeat split; auto. intros (h & m' & X & Y). cbn in X. inversion X; subst. cbn in S. congruence.
    - pose proof D as (Nd & F & _). pose proof (parse_number 16 ds ltac:(auto) Nd F) as PN.
      destruct (valueOf 16 ds <? 2 ^ 63) eqn:V.
      + left. exists (valueOf 16 ds), r. split; auto. split; [lia|]. left. eauto.
      + right. left. rewrite E. do 3 eexists. eapply intLit_err; [eapply number_hex; exact D|exact PN]. }
  destruct (lit_or "0" i) as [[m E]|[N0 _]].
  { destruct (DX digit8 m) as [S|(ds & r & D)].
    - destruct (DX digit10 m) as [S1|(ds & r & D)].
      + left. exists 0, m. split; auto. split; [lia|]. right. right. right. repeat split; auto.
        intros (h & m' & X & Y). subst m. eapply N. rewrite E. reflexivity.
      + right. left. pose proof D as (Nd & F & St & Em). destruct ds as [|c ds]; [congruence|].
        cbn [forallb] in F. apply andb_prop in F. destruct F as [Fc F].
        assert (C : c = 56 \/ c = 57).
        { subst m. cbn in S. unfold digit8, digit10, between in *. lia. }
        exists 0, r, ESyntax. eapply intLit_err with (t := 48 :: c :: ds).
        * apply number_dec.
          -- rewrite E, Em. repeat split; [discriminate| |auto]. cbn. rewrite Fc, F. reflexivity.
          -- intros (h & m' & X & _). eapply N. exact X.
          -- intros (h & m' & X & Y). rewrite E, Em in X. cbn in X. inversion X; subst h.
             unfold digit8, between in Y. lia.
        * change (fromCodes (48 :: c :: ds)) with (octet 48 :: octet c :: fromCodes ds).
          destruct C as [-> | ->]; unfold ParseInt; destruct (fromCodes ds); reflexivity.
    - pose proof D as (Nd & F & _). pose proof (parse_number 8 ds ltac:(auto) Nd F) as PN.
      destruct (valueOf 8 ds <? 2 ^ 63) eqn:V.
      + left. exists (valueOf 8 ds), r. split; auto. split; [lia|]. right. left. eauto.
      + right. left. rewrite E. do 3 eexists. eapply intLit_err; [eapply number_oct; exact D|exact PN]. }
  destruct (DX digit10 i) as [S|(ds & r & D)]; auto.
  pose proof D as (Nd & F & _ & E). assert (Hh : hd 0 ds <> 48).
  { destruct ds as [|c ds]; [congruence|]. cbn. intros ->. eapply N0. rewrite E. reflexivity. }
  pose proof (parse_number 10 ds ltac:(auto) Nd F) as PN.
  destruct (valueOf 10 ds <? 2 ^ 63) eqn:V.
  - left. exists (valueOf 10 ds), r. split; auto. split; [lia|]. right. right. left. eauto.
  - right. left. do 3 eexists. eapply intLit_err; [|exact PN]. apply number_dec; [exact D| |].
    + intros (h & m & X & _). eapply N. exact X.
    + intros (h & m & X & _). eapply N0. exact X.
Qed.
