(** Two sources one after the other denote the declarations of both. *)
From Coq Require Import ZArith String Ascii List Bool Lia ZifyBool ZifyNat Permutation.
From Verif Require Import Base Ast SyntaxSpec SyntaxForm PegUtf8 PegLexical PegSound PegSpace.
Import ListNotations.
Open Scope string_scope.
Open Scope list_scope.
Open Scope Z_scope.

Section Join.
(** What follows a text: a newline and more. *)
Variable more : input.
Notation T := (10 :: more).

(** If a text does not start with a blank, it still does not after more was added. *)
Definition stable (r : input) : Prop := r <> [] -> (forall r', ~ blank r r') -> forall r', ~ blank (r ++ T) r'.
Lemma stable_nil : stable []. Proof. intros H. contradiction. Qed.
Lemma stable_plain : forall c r, ~ separator c -> stable (c :: r).
Proof. intros c r N _ _ r' B. apply blank_head in B. destruct B as (x & k & E & S). cbn in E. injection E as <- _. contradiction. Qed.
Lemma stable_blank : forall r m, blank r m -> stable r.
Proof. intros r m B _ N. exfalso. eapply N; eauto. Qed.

Lemma blank_more : forall i m, blank i m -> blank (i ++ T) (m ++ T).
Proof.
  intros i m B. destruct B as [c r H|body r H|body r H E].
  - apply blank_char. exact H.
  - rewrite <- !app_assoc. apply blank_block. exact H.
  - rewrite <- !app_assoc. apply blank_line; auto. destruct r; [reflexivity|exact E].
Qed.
Lemma blanks_grow : forall i r, blanks i r -> r <> [] -> stable r -> blanks (i ++ T) (r ++ T) /\ stable i.
Proof.
  intros i r B. induction B as [r N|i m r B Bs IH]; intros NE S.
  - split; auto. apply blanks_end. apply S; auto.
  - destruct (IH NE S) as [IH1 _]. split; [|eapply stable_blank; eauto]. eapply blanks_more; [apply blank_more; eauto|auto].
Qed.
(** Blanks up to the end go on into what follows. *)
Lemma blanks_through : forall i r, blanks i [] -> blanks T r -> blanks (i ++ T) r.
Proof.
  intros i r B. remember (@nil Z) as e eqn:E. revert E. induction B as [k N|i m k B Bs IH]; intros E H; subst.
  - exact H.
  - eapply blanks_more; [apply blank_more; eauto|]. auto.
Qed.
Lemma blanks_stable : forall i, blanks i [] -> stable i.
Proof. intros i B. inversion B as [? N|? m ? X Y]; subst; [apply stable_nil|eapply stable_blank; eauto]. Qed.

(** [e]: also if nothing is left. *)
Definition grows {A} (e : bool) (R : prod A) : Prop := forall a ss i r, R a ss i r -> stable r -> e = true \/ r <> [] ->
  R a ss (i ++ T) (r ++ T) /\ stable i.
(** Nothing is taken from nothing; something is taken. *)
Definition thin {A} (R : prod A) : Prop := forall a ss r, R a ss [] r -> r = [].
Definition solid {A} (R : prod A) : Prop := forall a ss r, ~ R a ss [] r.

Lemma th_solid : forall A (R : prod A), solid R -> thin R.
Proof. intros A R S a ss r H. exfalso. eapply S; eauto. Qed.
Lemma th_empty : forall A (a : A), thin (empty a).
Proof. intros A a b ss r (_ & _ & ->). auto. Qed.
Lemma th_follow : forall A B (R : prod A) (K : A -> prod B), thin R -> (forall a, thin (K a)) -> thin (follow R K).
Proof. intros A B R K HR HK b ss r (a & s1 & s2 & m & H1 & H2 & _). apply HR in H1. subst m. eapply HK; eauto. Qed.
Lemma th_either : forall A (R1 R2 : prod A), thin R1 -> thin R2 -> thin (either R1 R2).
Proof. intros A R1 R2 T1 T2 a ss r [H|H]; eauto. Qed.
Lemma th_star : forall A (R : prod A), thin R -> thin (star R).
Proof.
  intros A R TR. assert (K : forall l ss i r, star R l ss i r -> i = [] -> r = []); [|intros l ss r H; eapply K; eauto].
  intros l ss i r H. induction H as [i|a l s1 s2 i m r H1 H2 IH]; intros E; auto. subst i. apply TR in H1. auto.
Qed.
Lemma th_maybe : forall A (R : prod A), thin R -> thin (maybe R).
Proof. intros A R TR [a|] ss r H; [eapply TR; eauto|]. destruct H as [_ ->]. auto. Qed.
Lemma th_gap : thin gap.
Proof. intros u ss r [_ B]. inversion B as [? N|? m ? X Y]; subst; auto. inversion X. Qed.

Lemma so_follow1 : forall A B (R : prod A) (K : A -> prod B), solid R -> solid (follow R K).
Proof. intros A B R K S b ss r (a & s1 & s2 & m & H1 & _). eapply S; eauto. Qed.
Lemma so_follow2 : forall A B (R : prod A) (K : A -> prod B), thin R -> (forall a, solid (K a)) -> solid (follow R K).
Proof. intros A B R K TR S b ss r (a & s1 & s2 & m & H1 & H2 & _). apply TR in H1. subst m. eapply S; eauto. Qed.
Lemma so_either : forall A (R1 R2 : prod A), solid R1 -> solid R2 -> solid (either R1 R2).
Proof. intros A R1 R2 T1 T2 a ss r [H|H]; [eapply T1|eapply T2]; eauto. Qed.
Lemma so_tok : forall w, points w <> [] -> solid (tok w).
Proof. intros w N a ss r [_ H]. destruct (points w); [contradiction|discriminate]. Qed.
Lemma so_gap1 : solid gap1.
Proof. intros a ss r (_ & m & B & _). inversion B. Qed.
Lemma so_word : forall f l, solid (word f l).
Proof. intros f l a ss r (_ & c & cs & _ & _ & _ & H & _). discriminate. Qed.
Lemma so_Literal : solid Literal.
Proof.
  intros v ss r (_ & _ & [(ds & m & H & _)|[(ds & m & H & _)|[(ds & _ & (D & _ & _ & H) & _)|(H & _)]]]); try discriminate.
  destruct ds; [contradiction|discriminate].
Qed.
Lemma so_such : forall A (q : A -> Prop) (R : prod A), solid R -> solid (such q R).
Proof. intros A q R S a ss r [H _]. eapply S; eauto. Qed.
Lemma so_declare : forall (R : prod struct), solid R -> solid (declare R).
Proof. intros R S a ss r (inner & H & _). eapply S; eauto. Qed.

Lemma gr_weaken : forall A (R : prod A), grows true R -> grows false R.
Proof. intros A R G a ss i r H S _. apply G; auto. Qed.
Lemma gr_empty : forall A (a : A) e, grows e (empty a).
Proof. intros A a e b ss i r (-> & -> & ->) S _. repeat split; auto. Qed.
(** The rest of the first is not empty if the second takes something. *)
Lemma gr_follow_solid : forall A B e (R : prod A) (K : A -> prod B), grows false R -> (forall a, grows e (K a)) -> (forall a, solid (K a)) -> grows e (follow R K).
Proof.
  intros A B e R K HR HK S b ss i r (a & s1 & s2 & m & H1 & H2 & ->) St E. destruct (HK _ _ _ _ _ H2 St E) as [X Y].
  assert (N : m <> []) by (intros ->; eapply S; eauto).
  destruct (HR _ _ _ _ H1 Y (or_intror N)) as [U V]. split; auto. exists a, s1, s2, (m ++ T). auto.
Qed.
Lemma gr_follow_thin : forall A B (R : prod A) (K : A -> prod B), grows false R -> (forall a, grows false (K a)) -> (forall a, thin (K a)) -> grows false (follow R K).
Proof.
  intros A B R K HR HK S b ss i r (a & s1 & s2 & m & H1 & H2 & ->) St E. destruct (HK _ _ _ _ _ H2 St E) as [X Y].
  assert (N : m <> []). { intros ->. apply S in H2. destruct E; [discriminate|contradiction]. }
  destruct (HR _ _ _ _ H1 Y (or_intror N)) as [U V]. split; auto. exists a, s1, s2, (m ++ T). auto.
Qed.
Lemma gr_follow : forall A B (R : prod A) (K : A -> prod B), grows true R -> (forall a, grows true (K a)) -> grows true (follow R K).
Proof.
  intros A B R K HR HK b ss i r (a & s1 & s2 & m & H1 & H2 & ->) St E. destruct (HK _ _ _ _ _ H2 St E) as [X Y].
  destruct (HR _ _ _ _ H1 Y (or_introl eq_refl)) as [U V]. split; auto. exists a, s1, s2, (m ++ T). auto.
Qed.
Lemma gr_either : forall A e (R1 R2 : prod A), grows e R1 -> grows e R2 -> grows e (either R1 R2).
Proof.
  intros A e R1 R2 G1 G2 a ss i r [H|H] S E; [destruct (G1 _ _ _ _ H S E)|destruct (G2 _ _ _ _ H S E)]; split; auto; [left|right]; auto.
Qed.
Lemma gr_star_true : forall A (R : prod A), grows true R -> grows true (star R).
Proof.
  intros A R G l ss i r H S _. induction H as [i | a l s1 s2 i m r H1 H2 IH].
  - split; auto. constructor.
  - destruct (IH S) as [X Y]. destruct (G _ _ _ _ H1 Y (or_introl eq_refl)). split; auto. econstructor; eauto.
Qed.
Lemma gr_star : forall A (R : prod A), grows false R -> thin R -> grows false (star R).
Proof.
  intros A R G TR l ss i r H S E. induction H as [i | a l s1 s2 i m r H1 H2 IH].
  - split; auto. constructor.
  - destruct (IH S E) as [X Y].
    assert (N : m <> []). { intros ->. apply (th_star _ _ TR) in H2. destruct E; [discriminate|contradiction]. }
    destruct (G _ _ _ _ H1 Y (or_intror N)). split; auto. econstructor; eauto.
Qed.
Lemma gr_maybe : forall A e (R : prod A), grows e R -> grows e (maybe R).
Proof. intros A e R G [a|] ss i r H S E; [eapply G; eauto|]. destruct H as [-> ->]. repeat split; auto. Qed.
Lemma star_app : forall A (R : prod A) l1 s1 i m l2 s2 r, star R l1 s1 i m -> star R l2 s2 m r -> star R (l1 ++ l2) (s1 ++ s2) i r.
Proof. intros A R l1 s1 i m l2 s2 r H. induction H; intros K; [exact K|]. cbn [app]. rewrite <- app_assoc. econstructor; eauto. Qed.
Lemma gr_such : forall A e (q : A -> Prop) (R : prod A), grows e R -> grows e (such q R).
Proof. intros A e q R G a ss i r [H Q] S E. destruct (G _ _ _ _ H S E). repeat split; auto. Qed.
Lemma gr_declare : forall e (R : prod struct), grows e R -> grows e (declare R).
Proof. intros e R G a ss i r (inner & H & ->) S E. destruct (G _ _ _ _ H S E). split; auto. exists inner. auto. Qed.
Lemma gr_tok : forall w e, noSeparator w = true -> points w <> [] -> grows e (tok w).
Proof.
  intros w e N P u ss i r [-> ->] S E. split; [split; auto; now rewrite <- app_assoc|].
  unfold noSeparator in N. destruct (points w) as [|c k]; [contradiction|]. cbn [app]. apply stable_plain.
  cbn [forallb existsb] in N. unfold separator. cbn [In]. lia.
Qed.
Lemma gr_gap : grows false gap.
Proof. intros u ss i r [-> B] S E. destruct (blanks_grow i r B ltac:(destruct E; [discriminate|auto]) S). repeat split; auto. Qed.
Lemma gr_gap1 : grows false gap1.
Proof.
  intros u ss i r (-> & m & B & Bs) S E. destruct (blanks_grow m r Bs ltac:(destruct E; [discriminate|auto]) S).
  split; [|eapply stable_blank; eauto]. split; auto. exists (m ++ T). split; auto. apply blank_more. auto.
Qed.
Lemma stops_grow : forall (class : Z -> bool) r, class 10 = false -> stops class r -> stops class (r ++ T).
Proof. intros class [|c r] N S; auto. Qed.
Lemma gr_word : forall first later e, later 10 = false -> (forall c, separator c -> first c = false) -> grows e (word first later).
Proof.
  intros first later e N F n ss i r (-> & c & cs & X & Y & Z & -> & ->) S E. split.
  - split; auto. exists c, cs. repeat (split; auto). { apply stops_grow; auto. } cbn [app]. now rewrite <- app_assoc.
  - cbn [app]. apply stable_plain. intros K. specialize (F _ K). congruence.
Qed.
Lemma digits_grow : forall class ds i r, class 10 = false -> digits class ds i r -> digits class ds (i ++ T) (r ++ T).
Proof. intros class ds i r N (D & F & S & ->). split; auto. split; auto. split; [apply stops_grow; auto|now rewrite <- app_assoc]. Qed.
Lemma gr_Literal : forall e, grows e Literal.
Proof.
  intros e v ss i r (-> & L & H) S E.
  assert (N16 : forall c, digit16 c = true -> ~ separator c) by (intros c; unfold separator, digit16, digit10, between; cbn [In]; lia).
  destruct H as [(ds & m & -> & D & V)|[(ds & m & -> & D & V)|[(ds & Hd & D & V)|(-> & St & V & X)]]].
  - split; [|apply stable_plain; cbn; unfold separator; cbn [In]; lia]. split; auto. split; auto. left. exists ds, (m ++ T).
    split; [now rewrite <- app_assoc|]. split; auto. apply digits_grow; auto.
  - split; [|apply stable_plain; cbn; unfold separator; cbn [In]; lia]. split; auto. split; auto. right. left. exists ds, (m ++ T).
    split; [now rewrite <- app_assoc|]. split; auto. apply digits_grow; auto.
  - split.
    + split; auto. split; auto. right. right. left. exists ds. split; auto. split; auto. apply digits_grow; auto.
    + destruct D as (D & F & _ & ->). destruct ds as [|c ds]; [contradiction|]. cbn [app]. apply stable_plain. apply N16.
      cbn [forallb] in F. apply andb_true_iff in F as [F _]. unfold digit16. now rewrite F.
  - split; [|apply stable_plain; cbn; unfold separator; cbn [In]; lia]. split; auto. split; auto. right. right. right.
    split; [now rewrite <- app_assoc|]. split; [apply stops_grow; auto|]. split; auto.
    intros (h & m & Em & Hh). destruct r as [|x r]; [discriminate|]. cbn [app] in Em. injection Em as -> Em.
    destruct r as [|h' r]; cbn [app] in Em; injection Em as <- <-; [discriminate|]. apply X. exists h', r. auto.
Qed.
Lemma gr_Identifier : forall e, grows e Identifier. Proof. intros e. apply gr_word; [reflexivity|sepclass]. Qed.
Lemma gr_ConstIdentifier : forall e, grows e ConstIdentifier. Proof. intros e. apply gr_word; [reflexivity|sepclass]. Qed.

(** Tactics: [so] finds what takes something, [th] what takes nothing from nothing. *)
Ltac so := lazymatch goal with
  | |- solid (follow _ _) => first [apply so_follow1; so | apply so_follow2; [th|intros; so]]
  | |- solid (either _ _) => apply so_either; so
  | |- solid (as_ _ _) => apply so_follow1; so
  | |- solid (tok _) => apply so_tok; discriminate
  | |- solid gap1 => apply so_gap1
  | |- solid Identifier => apply so_word
  | |- solid ConstIdentifier => apply so_word
  | |- solid Literal => apply so_Literal
  | |- solid (such _ _) => apply so_such; so
  | |- solid (declare _) => apply so_declare; so
  | |- solid (listOf _) => apply so_follow1; so
  | |- solid (ended _) => unfold ended; so
  | |- _ => solve [auto]
  end
with th := lazymatch goal with
  | |- thin (empty _) => apply th_empty
  | |- thin (follow _ _) => apply th_follow; [th|intros; th]
  | |- thin (either _ _) => apply th_either; th
  | |- thin (as_ _ _) => apply th_follow; [th|intros; th]
  | |- thin (star _) => apply th_star; th
  | |- thin (maybe _) => apply th_maybe; th
  | |- thin gap => apply th_gap
  | |- thin (ended _) => unfold ended; th
  | |- _ => first [solve [auto] | apply th_solid; so]
  end.
(** [gr]: sequences inside; [ge]: sequences that end with something taken. *)
Ltac gr := lazymatch goal with
  | |- grows _ (empty _) => apply gr_empty
  | |- grows false (follow _ _) => first [apply gr_follow_thin; [gr|intros; gr|intros; th]]
  | |- grows false (either _ _) => apply gr_either; gr
  | |- grows false (as_ _ _) => apply gr_follow_thin; [gr|intros; gr|intros; th]
  | |- grows false (star _) => apply gr_star; [gr|th]
  | |- grows false (maybe _) => apply gr_maybe; gr
  | |- grows false (such _ _) => apply gr_such; gr
  | |- grows false (declare _) => apply gr_declare; gr
  | |- grows _ (tok _) => apply gr_tok; [reflexivity|discriminate]
  | |- grows false gap => apply gr_gap
  | |- grows false gap1 => apply gr_gap1
  | |- grows _ Identifier => apply gr_Identifier
  | |- grows _ ConstIdentifier => apply gr_ConstIdentifier
  | |- grows _ Literal => apply gr_Literal
  | |- grows false (listOf _) => unfold listOf; gr
  | |- grows false (ended _) => unfold ended; gr
  | |- _ => solve [auto]
  end.
Lemma so_Int : solid Int. Proof. unfold Int. so. Qed.
Lemma so_Ref : solid Ref. Proof. unfold Ref. so. Qed.
#[local] Hint Resolve so_Int so_Ref : core.
Lemma so_Range : solid Range. Proof. unfold Range. so. Qed.
#[local] Hint Resolve so_Range : core.
Lemma so_Constraint : solid Constraint_. Proof. unfold Constraint_. so. Qed.
Lemma so_IntType : solid IntType. Proof. unfold IntType. so. Qed.
Lemma so_Len : solid Len. Proof. unfold Len. so. Qed.
Lemma so_StructName : solid StructName. Proof. unfold StructName. so. Qed.
#[local] Hint Resolve so_Constraint so_IntType so_Len so_StructName : core.
Lemma gr_Int : grows false Int. Proof. unfold Int. gr. Qed.
Lemma gr_Ref : grows false Ref. Proof. unfold Ref. gr. Qed.
#[local] Hint Resolve gr_Int gr_Ref : core.
Lemma gr_Range : grows false Range. Proof. unfold Range. gr. Qed.
#[local] Hint Resolve gr_Range : core.
Lemma gr_Constraint : grows false Constraint_. Proof. unfold Constraint_. gr. Qed.
Lemma gr_IntType : grows false IntType. Proof. unfold IntType, Size. gr. Qed.
Lemma gr_Len : grows false Len. Proof. unfold Len. gr. Qed.
Lemma gr_StructName : grows false StructName. Proof. unfold StructName. gr. Qed.
Lemma gr_Contexts : grows false Contexts. Proof. unfold Contexts. gr. Qed.
Lemma th_Contexts : thin Contexts. Proof. unfold Contexts. th. Qed.
#[local] Hint Resolve gr_Constraint gr_IntType gr_Len gr_StructName gr_Contexts th_Contexts : core.
Section Structs.
  Variable SD : prod struct.
  Hypothesis GSD : grows false SD.
  Hypothesis SSD : solid SD.
  Lemma so_StructRef : solid (StructRef SD). Proof using SSD. unfold StructRef. so. Qed.
  Lemma gr_StructRef : grows false (StructRef SD). Proof using GSD SSD. unfold StructRef. gr. Qed.
  Hint Resolve so_StructRef gr_StructRef : core.
  Lemma so_ArrayBase : solid (ArrayBase SD). Proof using SSD. unfold ArrayBase. so. Qed.
  Lemma gr_ArrayBase : grows false (ArrayBase SD). Proof using GSD SSD. unfold ArrayBase. gr. Qed.
  Hint Resolve so_ArrayBase gr_ArrayBase : core.
  Lemma so_Remainder : solid (Remainder SD). Proof using SSD. unfold Remainder. so. Qed.
  Lemma gr_Remainder : grows false (Remainder SD). Proof using GSD SSD. unfold Remainder. gr. Qed.
  Lemma so_Field : solid (Field SD).
  Proof using SSD. unfold Field, FixedArray, VarArray, IntField, String_, StructField. so. Qed.
  Lemma gr_Field : grows false (Field SD).
  Proof using GSD SSD. unfold Field, FixedArray, VarArray, IntField, String_, StructField. gr. Qed.
  Hint Resolve so_Remainder gr_Remainder so_Field gr_Field : core.
  Lemma th_Body : thin (Body SD). Proof using SSD. unfold Body, Fields, Extent. th. Qed.
  Lemma gr_Body : grows false (Body SD). Proof using GSD SSD. unfold Body, Fields, Extent. gr. Qed.
  Hint Resolve th_Body gr_Body : core.
  Lemma so_Union : solid (Union SD). Proof using SSD. unfold Union. so. Qed.
  Lemma gr_Union : grows false (Union SD). Proof using GSD SSD. unfold Union, Case, CaseLabel. gr. Qed.
  Hint Resolve so_Union gr_Union : core.
  Lemma so_Struct : solid (Struct SD). Proof using SSD. unfold Struct. so. Qed.
  (** The part up to the last brace, then the brace. *)
  Lemma gr_Struct : grows true (Struct SD).
  Proof using GSD SSD.
    unfold Struct, Member, Ending, Position.
    repeat first [apply gr_follow_solid; [gr|intros|intros; so]].
    apply gr_follow; [apply gr_tok; [reflexivity|discriminate]|intros; apply gr_empty].
  Qed.
End Structs.
Lemma so_StructN : forall n, solid (StructN n).
Proof. induction n as [|n IH]; [intros a ss r []|]. apply so_Struct. exact IH. Qed.
Lemma gr_StructN : forall n, grows true (StructN n).
Proof. induction n as [|n IH]; [intros a ss i r []|]. apply gr_Struct; [apply gr_weaken; exact IH|apply so_StructN]. Qed.
Lemma gr_StructDecl : grows true StructDecl.
Proof. intros a ss i r [n H] S E. destruct (gr_StructN n _ _ _ _ H S E) as [X Y]. split; auto. exists n. exact X. Qed.
Lemma so_StructDecl : solid StructDecl.
Proof. intros a ss r [n H]. eapply so_StructN; eauto. Qed.
#[local] Hint Resolve so_StructDecl gr_StructDecl : core.

Ltac ge := lazymatch goal with
  | |- grows true (follow _ (fun _ => empty _)) => apply gr_follow; [ge|intros; apply gr_empty]
  | |- grows true (either _ _) => apply gr_either; ge
  | |- grows true (maybe _) => apply gr_maybe; ge
  | |- grows true (tok _) => apply gr_tok; [reflexivity|discriminate]
  | |- grows true (follow _ _) => first [solve [apply gr_follow_solid; [gr|intros; ge|intros; so]] | apply gr_follow; [ge|intros; ge]]
  | |- _ => solve [auto]
  end.
Lemma gr_Decl : grows true Decl.
Proof.
  unfold Decl, ConstDecl, ContextDecl, ContextField, StructDef, ExternDecl, PragmaDecl.
  apply gr_follow_solid; [gr|intros|intros; so].
  repeat apply gr_either; ge.
Qed.

End Join.

Theorem files_join : forall more ds1 in1 cs1 ds2 in2, File_ ds1 in1 cs1 [] -> File_ ds2 in2 more [] ->
  File_ (ds1 ++ ds2) (in1 ++ in2) (cs1 ++ 10 :: more) [].
Proof.
  intros more ds1 in1 cs1 ds2 in2 (a & s1 & s2 & m & S1 & (u & s3 & s4 & m1 & [-> B] & (-> & -> & E) & ->) & ->) F2. subst m1.
  cbn [app]; rewrite ?app_nil_r.
  pose proof (gr_star_true more _ _ (gr_Decl more) _ _ _ _ S1 (blanks_stable more _ B) (or_introl eq_refl)) as [G _].
  destruct F2 as (a2 & t1 & t2 & m2 & S2 & (u2 & t3 & t4 & m3 & [-> B2] & (-> & -> & E2) & ->) & ->). subst m3.
  cbn [app]; rewrite ?app_nil_r.
  assert (X : exists k, star Decl (a ++ a2) (s1 ++ t1) (cs1 ++ 10 :: more) k /\ blanks k []).
  { assert (NL : forall i r, blanks i r -> blanks (10 :: i) r).
    { intros i r Bi. eapply blanks_more; [apply blank_char; cbn; auto|exact Bi]. }
    inversion S2 as [i|d ds u1 u2' i k r D SS]; subst.
    - eexists. split; [rewrite !app_nil_r; exact G|]. apply blanks_through; auto.
    - exists m2. split; auto. eapply star_app; eauto. econstructor; eauto.
      destruct D as (g & v1 & v2 & w & [-> Bw] & D & ->). exists tt, [], v2, w. split; [split; auto; apply blanks_through; auto|]. auto. }
  destruct X as (k & X & Bk). exists (a ++ a2), (s1 ++ t1), [], k. split; auto. split; [|now rewrite app_nil_r].
  exists tt, [], [], []. split; [split; auto|]. split; auto. repeat split.
Qed.

(** The declarations of two files. *)
Definition both (f g h : file) : Prop :=
  fconstants h = fconstants f ++ fconstants g /\ fcontexts h = fcontexts f ++ fcontexts g /\
  Permutation (fstructs h) (fstructs f ++ fstructs g) /\ fpragmas h = fpragmas f ++ fpragmas g.
Lemma fileOf_both : forall d1 i1 d2 i2, both (fileOf d1 i1) (fileOf d2 i2) (fileOf (d1 ++ d2) (i1 ++ i2)).
Proof.
  intros. unfold both, fileOf. cbn. rewrite !flat_map_app. repeat split; auto.
  rewrite <- !app_assoc. apply Permutation_app_head. rewrite !app_assoc. apply Permutation_app_tail. apply Permutation_app_comm.
Qed.
Theorem denotes_join : forall a b f g, denotes a f -> denotes b g ->
  exists h, denotes (a ++ utf8 [10] ++ b) h /\ both f g h.
Proof.
  intros a b f g (cs1 & d1 & i1 & S1 & -> & F1 & ->) (cs2 & d2 & i2 & S2 & -> & F2 & ->).
  exists (fileOf (d1 ++ d2) (i1 ++ i2)). split; [|apply fileOf_both].
  exists (cs1 ++ 10 :: cs2), (d1 ++ d2), (i1 ++ i2). split; [|split; [|split; auto]].
  - apply Forall_app. split; auto. constructor; auto. left. lia.
  - unfold utf8. rewrite flat_map_app. reflexivity.
  - apply files_join; auto.
Qed.

(** ** The other way round *)
From Verif Require Import PegDescent PegComplete.
Definition sameBlanks (i i' : input) : Prop := exists q, blanks i q /\ blanks i' q.
Lemma Decl_fun : forall a ss i r a' ss' i' r', Decl a ss i r -> Decl a' ss' i' r' -> sameBlanks i i' ->
  (forall c, ahead r c -> c <> 59) -> (forall c, ahead r' c -> c <> 59) -> a = a' /\ ss = ss' /\ sameBlanks r r'.
Proof.
  intros a ss i r a' ss' i' r' D D' (q & B & B') A A'.
  destruct (C_Decl _ _ _ _ D A) as [N G]. destruct (C_Decl _ _ _ _ D' A') as [N' G'].
  destruct (G (Nat.max N N') (Nat.le_max_l _ _)) as (d & E & X). destruct (G' (Nat.max N N') (Nat.le_max_r _ _)) as (d' & E' & X').
  destruct (blanks_total r) as [r2 Br]. destruct (blanks_total r') as [r2' Br'].
  pose proof (gives_same _ _ _ _ _ _ _ B (X _ Br)) as Y. pose proof (gives_same _ _ _ _ _ _ _ B' (X' _ Br')) as Y'.
  specialize (Y [] []). specialize (Y' [] []). rewrite Y in Y'. injection Y' as -> E1 E2.
  split; [congruence|]. split; [cbn in E2; congruence|]. exists r2. split; auto. congruence.
Qed.
Lemma Decl_some : forall a ss i r, Decl a ss i r -> ~ blanks i [].
Proof.
  intros a ss i r (u & s1 & s2 & m & [_ B] & H & _) B'. rewrite (blanks_det _ _ _ B B') in H.
  revert H. unfold ConstDecl, ContextDecl, StructDef, ExternDecl, PragmaDecl.
  intros [[[[H|H]|H]|H]|H]; destruct H as (x & t1 & t2 & k & H & _); try (destruct H as [_ H]; discriminate).
  destruct H as [n H]. exact (so_StructN n _ _ _ H).
Qed.
Lemma Decls_ahead : forall l ss i r, star Decl l ss i r -> (forall c, ahead r c -> c <> 59) -> forall c, ahead i c -> c <> 59.
Proof. intros l ss i r H A. inversion H; subst; auto. eapply Decl_ahead; eauto. Qed.

Lemma Decls_split : forall l1 s1 i m, star Decl l1 s1 i m -> (forall c, ahead m c -> c <> 59) ->
  forall l s i' k, star Decl l s i' k -> blanks k [] -> sameBlanks i i' ->
  exists l2 s2 m', star Decl l2 s2 m' k /\ l = l1 ++ l2 /\ s = s1 ++ s2 /\ sameBlanks m m'.
Proof.
  intros l1 s1 i m H. induction H as [i|a l1 s1 s2 i m1 m H1 H2 IH]; intros A l s i' k K B E.
  - exists l, s, i'. auto.
  - assert (KA : forall c, ahead k c -> c <> 59). { intros c (q & Bq & <-). rewrite (blanks_det _ _ _ Bq B). cbn. lia. }
    inversion K as [x|a' l' t1 t2 x k1 y D SS]; subst.
    + exfalso. destruct E as (q & E1 & E2). apply (Decl_some _ _ _ _ H1). rewrite (blanks_det _ _ _ B E2). exact E1.
    + destruct (Decl_fun _ _ _ _ _ _ _ _ H1 D E) as (-> & -> & E').
      * eapply Decls_ahead; eauto.
      * eapply Decls_ahead; eauto.
      * destruct (IH A _ _ _ _ SS B E') as (l2 & s3 & m' & X & -> & -> & Y). exists l2, s3, m'. repeat split; auto. now rewrite app_assoc.
Qed.

(** A semicolon may end the last declaration of the first text. *)
Definition semicolonFirst (cs : input) : Prop := exists r, blanks cs (59 :: r).
Theorem files_split : forall more ds1 in1 cs1 ds inl, File_ ds1 in1 cs1 [] -> File_ ds inl (cs1 ++ 10 :: more) [] -> ~ semicolonFirst more ->
  exists ds2 in2, File_ ds2 in2 more [] /\ ds = ds1 ++ ds2 /\ inl = in1 ++ in2.
Proof.
  intros more ds1 in1 cs1 ds inl (a & s1 & s2 & m & S1 & (u & s3 & s4 & m1 & [-> B] & (-> & -> & E) & ->) & ->) F NS. subst m1.
  destruct F as (a2 & t1 & t2 & k & S2 & (u2 & t3 & t4 & m3 & [-> B2] & (-> & -> & E2) & ->) & ->). subst m3.
  cbn [app] in *. rewrite ?app_nil_r.
  pose proof (gr_star_true more _ _ (gr_Decl more) _ _ _ _ S1 (blanks_stable more _ B) (or_introl eq_refl)) as [G _].
  destruct (blanks_total more) as [q Bq].
  assert (Bm : blanks (m ++ 10 :: more) q).
  { apply blanks_through; auto. eapply blanks_more; [apply blank_char; cbn; auto|exact Bq]. }
  destruct (Decls_split _ _ _ _ G) with (l := a2) (s := t1) (i' := cs1 ++ 10 :: more) (k := k) as (l2 & s2 & m' & X & -> & -> & (q' & Y1 & Y2)); auto.
  - intros c (q' & Bq' & <-) Hc. rewrite (blanks_det _ _ _ Bq' Bm) in Hc. apply NS. destruct q as [|x q]; [discriminate|]. cbn in Hc. subst x. exists q. exact Bq.
  - destruct (blanks_total (cs1 ++ 10 :: more)) as [w Bw]. exists w. auto.
  - pose proof (blanks_det _ _ _ Y1 Bm) as ->. exists l2, s2. split; [|auto].
    assert (Z : exists k', star Decl l2 s2 more k' /\ blanks k' []).
    { inversion X as [x|d l' v1 v2 x k1 y D SS]; subst.
      - exists more. split; [constructor|]. rewrite (blanks_det _ _ _ B2 Y2). exact Bq.
      - exists k. split; auto. econstructor; eauto. destruct D as (g & w1 & w2 & w & [-> Bw] & D & ->).
        exists tt, [], w2, w. split; [split; auto; rewrite (blanks_det _ _ _ Bw Y2); exact Bq|]. auto. }
    destruct Z as (k' & Z1 & Z2). exists l2, s2, [], k'. split; auto. split; [|now rewrite app_nil_r].
    exists tt, [], [], []. split; [split; auto|]. split; auto. repeat split.
Qed.
Theorem denotes_split : forall a cs f h, Forall scalar cs -> denotes a f -> denotes (a ++ utf8 [10] ++ utf8 cs) h -> ~ semicolonFirst cs ->
  exists g, denotes (utf8 cs) g /\ both f g h.
Proof.
  intros a cs2 f h S2 (cs1 & d1 & i1 & S1 & -> & F1 & ->) (cs & d & i & S & E & F & ->) NS.
  assert (cs = cs1 ++ 10 :: cs2).
  { rewrite <- (runes_utf8 _ S). rewrite <- E. rewrite <- (runes_utf8 (cs1 ++ 10 :: cs2)).
    - f_equal. unfold utf8. rewrite flat_map_app. reflexivity.
    - apply Forall_app. split; auto. constructor; auto. left. lia. }
  subst cs. destruct (files_split _ _ _ _ _ _ F1 F NS) as (ds2 & in2 & F2 & -> & ->).
  exists (SyntaxSpec.fileOf ds2 in2). split; [exists cs2, ds2, in2; auto|apply fileOf_both].
Qed.
