(** Changing the separators of a text does not change what it denotes. *)
From Coq Require Import ZArith String Ascii List Bool Lia ZifyBool ZifyNat.
From Verif Require Import Base Ast SyntaxSpec SyntaxForm PegUtf8 PegLexical PegSound.
Import ListNotations.
Open Scope string_scope.
Open Scope list_scope.
Open Scope Z_scope.

Definition separator (c : Z) : Prop := In c [32; 9; 13; 10; 47].

Lemma blank_head : forall i m, blank i m -> exists c k, i = c :: k /\ separator c.
Proof. intros i m B. unfold separator. destruct B as [x k X | body k X | body k X Y]; cbn in *; repeat eexists; lia. Qed.
Lemma plain_blanks : forall c i r, ~ separator c -> blanks (c :: i) r -> r = c :: i.
Proof.
  intros c i r N B. inversion B as [? X|? ? ? X Y]; subst; auto. apply blank_head in X. destruct X as (c' & k & E & S).
  inversion E; subst. contradiction.
Qed.

Lemma filler_start : forall g i, filler g -> exists c k m, g = c :: k /\ separator c /\ blank (g ++ i) m.
Proof.
  intros g i H. revert i. induction H as [c H | body H | body H | g1 g2 H1 IH1 H2 IH2]; intros i.
  - exists c, [], i. split; auto. split; [unfold separator; cbn in *; lia|]. apply blank_char. exact H.
  - eexists 47, _, i. split; [reflexivity|]. split; [unfold separator; cbn; lia|]. rewrite <- !app_assoc. apply blank_block. exact H.
  - eexists 47, _, (10 :: i). split; [reflexivity|]. split; [unfold separator; cbn; lia|]. rewrite <- !app_assoc. apply blank_line; auto.
  - destruct (IH1 (g2 ++ i)) as (c & k & m & -> & S & B). exists c, (k ++ g2), m. split; [reflexivity|]. split; auto.
    rewrite <- app_assoc. exact B.
Qed.
Lemma filler_blanks : forall g i r, filler g -> blanks i r -> blanks (g ++ i) r.
Proof.
  intros g i r H. revert i r. induction H as [c H | body H | body H | g1 g2 H1 IH1 H2 IH2]; intros i r B.
  - eapply blanks_more; [apply blank_char; exact H|exact B].
  - rewrite <- !app_assoc. eapply blanks_more; [apply blank_block; exact H|exact B].
  - rewrite <- !app_assoc. eapply blanks_more; [apply blank_line; [exact H|reflexivity]|].
    eapply blanks_more; [apply blank_char; cbn; auto|exact B].
  - rewrite <- app_assoc. auto.
Qed.
Lemma last_start : forall g, lastFiller g -> exists c k m, g = c :: k /\ separator c /\ blank g m.
Proof.
  intros g H. induction H as [g H | body H | g1 g2 H1 H2 IH].
  - destruct (filler_start g [] H) as (c & k & m & E & S & B). rewrite app_nil_r in B. eauto 6.
  - eexists 47, _, []. split; [reflexivity|]. split; [unfold separator; cbn; lia|].
    pose proof (blank_line body [] H eq_refl) as B. rewrite app_nil_r in B. exact B.
  - destruct (filler_start g1 g2 H1) as (c & k & m & -> & S & B). exists c, (k ++ g2), m. auto.
Qed.
Lemma nothing_blanks : blanks [] [].
Proof. apply blanks_end. intros r B. inversion B. Qed.
Lemma last_blanks : forall g, lastFiller g -> blanks g [].
Proof.
  intros g H. induction H as [g H | body H | g1 g2 H1 H2 IH].
  - rewrite <- (app_nil_r g). apply filler_blanks; auto. apply nothing_blanks.
  - eapply blanks_more; [|apply nothing_blanks].
    pose proof (blank_line body [] H eq_refl) as B. rewrite app_nil_r in B. exact B.
  - apply filler_blanks; auto.
Qed.

(** ** The relation on single characters *)
Lemma respaced_sym : forall i i', respaced i i' -> respaced i' i.
Proof. induction 1; eauto using respaced. Qed.
Lemma re_plain : forall c i i', ~ separator c -> respaced (c :: i) i' -> exists k, i' = c :: k /\ respaced i k.
Proof.
  intros c i i' N H. inversion H as [|x j j' X Y|g g' j j' G G' Y E|g g' G G' E]; subst; eauto.
  - destruct (filler_start g j G) as (x & k & m & -> & S & B). cbn in E. inversion E; subst. contradiction.
  - destruct (last_start _ G) as (x & k & m & Eg & S & B). inversion Eg; subst. contradiction.
Qed.
Lemma re_empty : forall i', respaced [] i' -> i' = [].
Proof.
  intros i' H. inversion H as [|x j j' X Y|g g' j j' G G' Y E|g g' G G' E]; subst; auto.
  - destruct (filler_start g j G) as (x & k & m & -> & S & B). discriminate.
  - destruct (last_start _ G) as (x & k & m & Eg & S & B). discriminate.
Qed.
Lemma re_texts : forall w r i', (forall c, In c w -> ~ separator c) -> respaced (w ++ r) i' ->
  exists r', i' = w ++ r' /\ respaced r r'.
Proof.
  induction w as [|c w IH]; intros r i' N H; cbn [app] in *; eauto.
  apply re_plain in H; [|apply N; left; auto]. destruct H as (k & -> & H).
  destruct (IH r k) as (r' & -> & H'); eauto. intros x X. apply N. right. auto.
Qed.
Lemma re_stops : forall class r r', (forall c, separator c -> class c = false) -> respaced r r' ->
  stops class r -> stops class r'.
Proof.
  intros class r r' N H S. inversion H as [|x j j' X Y|g g' j j' G G' Y E|g g' G G' E]; subst; auto.
  - destruct (filler_start g' j' G') as (x & k & m & -> & Sx & B). cbn. auto.
  - destruct (last_start _ G') as (x & k & m & -> & Sx & B). cbn. auto.
Qed.

(** ** Productions *)
Definition spaced {A} (R : prod A) : Prop := forall a ss i r i', R a ss i r -> respaced i i' ->
  exists r', R a ss i' r' /\ respaced r r'.

Lemma sp_empty : forall A (a : A), spaced (empty a).
Proof. intros A a b ss i r i' (-> & -> & ->) H. exists i'. split; auto. repeat split. Qed.
Lemma sp_follow : forall A B (R : prod A) (K : A -> prod B), spaced R -> (forall a, spaced (K a)) -> spaced (follow R K).
Proof.
  intros A B R K HR HK b ss i r i' (a & s1 & s2 & m & H1 & H2 & ->) H. destruct (HR _ _ _ _ _ H1 H) as (m' & H1' & Hm).
  destruct (HK _ _ _ _ _ _ H2 Hm) as (r' & H2' & Hr). exists r'. split; auto. exists a, s1, s2, m'. auto.
Qed.
Lemma sp_either : forall A (R1 R2 : prod A), spaced R1 -> spaced R2 -> spaced (either R1 R2).
Proof.
  intros A R1 R2 S1 S2 a ss i r i' [H|H] E; [destruct (S1 _ _ _ _ _ H E) as (r' & X & Y)|destruct (S2 _ _ _ _ _ H E) as (r' & X & Y)];
  exists r'; split; auto; [left|right]; auto.
Qed.
Lemma sp_star : forall A (R : prod A), spaced R -> spaced (star R).
Proof.
  intros A R S l ss i r i' H. revert i'. induction H as [i | a l s1 s2 i m r H1 H2 IH]; intros i' E.
  - exists i'. split; auto. constructor.
  - destruct (S _ _ _ _ _ H1 E) as (m' & X & Y). destruct (IH _ Y) as (r' & X' & Y'). exists r'. split; auto.
    econstructor; eauto.
Qed.
Lemma sp_maybe : forall A (R : prod A), spaced R -> spaced (maybe R).
Proof.
  intros A R S [a|] ss i r i' H E; [eapply S; eauto|]. destruct H as [-> ->]. exists i'. split; auto. split; auto.
Qed.
Lemma sp_as : forall A B (f : A -> B) (R : prod A), spaced R -> spaced (as_ f R).
Proof. intros A B f R S. apply sp_follow; auto. intros. apply sp_empty. Qed.
Lemma sp_such : forall A (q : A -> Prop) (R : prod A), spaced R -> spaced (such q R).
Proof. intros A q R S a ss i r i' [H Q] E. destruct (S _ _ _ _ _ H E) as (r' & X & Y). exists r'. split; auto. split; auto. Qed.
Lemma sp_declare : forall (R : prod struct), spaced R -> spaced (declare R).
Proof.
  intros R S a ss i r i' (inner & H & ->) E. destruct (S _ _ _ _ _ H E) as (r' & X & Y). exists r'. split; auto. exists inner. auto.
Qed.

Definition noSeparator (w : string) : bool := forallb (fun c => negb (existsb (Z.eqb c) [32; 9; 13; 10; 47])) (points w).
Lemma sp_tok : forall w, noSeparator w = true -> spaced (tok w).
Proof.
  intros w N u ss i r i' [-> ->] E. apply re_texts in E.
  - destruct E as (r' & -> & E). exists r'. split; auto. split; auto.
  - intros c Hc. unfold noSeparator in N. rewrite forallb_forall in N. specialize (N c Hc).
    unfold separator. cbn [existsb] in N. cbn [In]. lia.
Qed.
Lemma sp_gap : spaced gap.
Proof.
  intros u ss i r i' [-> B] E.
  assert (K : exists r', blanks i' r' /\ respaced r r').
  { revert r B. induction E as [|c i i' N E IH|g g' i i' G G' E IH|g g' G G']; intros r B.
    - assert (r = []) by (inversion B as [|? ? ? X]; subst; auto; inversion X). subst. exists []. auto using re_nil, nothing_blanks.
    - apply plain_blanks in B; auto. subst r. exists (c :: i'). split; [|constructor; auto].
      apply blanks_end. intros r B. apply blank_head in B. destruct B as (x & k & Ex & S). inversion Ex; subst. contradiction.
    - destruct (blanks_total i) as [k K]. pose proof (blanks_det _ _ _ B (filler_blanks _ _ _ G K)). subst r.
      destruct (IH _ K) as (r' & B' & R). exists r'. split; auto. apply filler_blanks; auto.
    - rewrite (blanks_det _ _ _ B (last_blanks _ G)). exists []. split; [apply last_blanks; auto|apply re_nil]. }
  destruct K as (r' & B' & R). exists r'. split; auto. split; auto.
Qed.
Lemma sp_gap1 : spaced gap1.
Proof.
  intros u ss i r i' (-> & m & Bm & B) E.
  destruct (sp_gap tt [] i r i') as (r' & [_ B'] & R); auto.
  { split; auto. eapply blanks_more; eauto. }
  assert (K : exists m', blank i' m').
  { inversion E as [|x j j' X Y|g g' j j' G G' Y E1|g g' G G' E1]; subst.
    - inversion Bm.
    - apply blank_head in Bm. destruct Bm as (y & k & Ey & S). inversion Ey; subst. contradiction.
    - destruct (filler_start g' j' G') as (x & k & m' & _ & _ & K). eauto.
    - destruct (last_start _ G') as (x & k & m' & _ & _ & K). eauto. }
  destruct K as [m' K]. exists r'. split; auto. split; auto. inversion B' as [? X|? ? ? X Y]; subst; eauto. exfalso. eapply X; eauto.
Qed.

Ltac sepclass := let H := fresh in intros ? H; unfold separator in H; cbn [In] in H;
  unfold later_, upperLater, first_, upper, lower, digit16, digit10, digit8, between in *; lia.
Lemma classed : forall (class : Z -> bool) w, (forall c, separator c -> class c = false) -> forallb class w = true ->
  forall c, In c w -> ~ separator c.
Proof. intros class w N F c H S. rewrite forallb_forall in F. specialize (F c H). specialize (N c S). congruence. Qed.
Lemma sp_word : forall first later, (forall c, separator c -> first c = false) -> (forall c, separator c -> later c = false) ->
  spaced (word first later).
Proof.
  intros first later N1 N2 n ss i r i' (-> & c & cs & F & Fs & St & -> & ->) E.
  apply re_plain in E; [|intros S; specialize (N1 _ S); congruence]. destruct E as (k & -> & E).
  apply re_texts in E; [|eapply classed; eauto]. destruct E as (r' & -> & E). exists r'. split; auto.
  split; auto. exists c, cs. repeat (split; auto). eapply re_stops; eauto.
Qed.
Lemma sp_digits : forall class ds i r i', (forall c, separator c -> class c = false) -> digits class ds i r -> respaced i i' ->
  exists r', digits class ds i' r' /\ respaced r r'.
Proof.
  intros class ds i r i' N (D & F & S & ->) E. apply re_texts in E; [|eapply classed; eauto]. destruct E as (r' & -> & E).
  exists r'. split; auto. split; auto. split; auto. split; auto. eapply re_stops; eauto.
Qed.
Lemma sp_Literal : spaced Literal.
Proof.
  intros v ss i r i' (-> & L & H) E. unfold Literal.
  assert (S16 : forall c, separator c -> digit16 c = false) by sepclass.
  assert (S10 : forall c, separator c -> digit10 c = false) by sepclass.
  assert (S8 : forall c, separator c -> digit8 c = false) by sepclass.
  destruct H as [(ds & m & -> & D & V)|[(ds & m & -> & D & V)|[(ds & Hd & D & V)|(-> & S & V & X)]]].
  - apply (sp_tok "0x" eq_refl tt [] _ m) in E; [|split; auto]. destruct E as (m' & [_ ->] & E).
    destruct (sp_digits _ _ _ _ _ S16 D E) as (r' & D' & E'). exists r'. split; auto. split; auto. split; auto. left. exists ds, m'. auto.
  - apply (sp_tok "0" eq_refl tt [] _ m) in E; [|split; auto]. destruct E as (m' & [_ ->] & E).
    destruct (sp_digits _ _ _ _ _ S8 D E) as (r' & D' & E'). exists r'. split; auto. split; auto. split; auto. right. left. exists ds, m'. auto.
  - destruct (sp_digits _ _ _ _ _ S10 D E) as (r' & D' & E'). exists r'. split; auto. split; auto. split; auto. right. right. left. exists ds. auto.
  - apply (sp_tok "0" eq_refl tt [] _ r) in E; [|split; auto]. destruct E as (r' & [_ ->] & E).
    exists r'. split; auto. split; auto. split; auto. right. right. right. split; auto. split; [eapply re_stops; eauto|]. split; auto.
    intros (h & m & -> & Hh). apply X. apply respaced_sym in E.
    apply (sp_tok "x" eq_refl tt [] _ (h :: m)) in E; [|split; auto]. destruct E as (m' & [_ ->] & E).
    apply re_plain in E; [|intros K; specialize (S16 _ K); congruence]. destruct E as (k & -> & E). eauto.
Qed.
Lemma sp_Identifier : spaced Identifier. Proof. apply sp_word; sepclass. Qed.
Lemma sp_ConstIdentifier : spaced ConstIdentifier. Proof. apply sp_word; sepclass. Qed.

Ltac sp := lazymatch goal with
  | |- spaced (follow _ _) => apply sp_follow; [sp|intros; sp]
  | |- spaced (either _ _) => apply sp_either; [sp|sp]
  | |- spaced (empty _) => apply sp_empty
  | |- spaced (star _) => apply sp_star; sp
  | |- spaced (maybe _) => apply sp_maybe; sp
  | |- spaced (as_ _ _) => apply sp_as; sp
  | |- spaced (such _ _) => apply sp_such; sp
  | |- spaced (declare _) => apply sp_declare; sp
  | |- spaced (tok _) => apply sp_tok; reflexivity
  | |- spaced gap => apply sp_gap
  | |- spaced gap1 => apply sp_gap1
  | |- spaced Identifier => apply sp_Identifier
  | |- spaced ConstIdentifier => apply sp_ConstIdentifier
  | |- spaced Literal => apply sp_Literal
  | |- spaced (listOf _) => unfold listOf; sp
  | |- spaced (ended _) => unfold ended; sp
  | |- _ => solve [auto] || fail "no rule"
  end.
Lemma sp_Int : spaced Int. Proof. unfold Int. sp. Qed.
Lemma sp_Ref : spaced Ref. Proof. unfold Ref. sp. Qed.
#[local] Hint Resolve sp_Int sp_Ref : core.
Lemma sp_Range : spaced Range. Proof. unfold Range. sp. Qed.
#[local] Hint Resolve sp_Range : core.
Lemma sp_Constraint : spaced Constraint_. Proof. unfold Constraint_. sp. Qed.
Lemma sp_IntType : spaced IntType. Proof. unfold IntType, Size. sp. Qed.
Lemma sp_Len : spaced Len. Proof. unfold Len. sp. Qed.
Lemma sp_StructName : spaced StructName. Proof. unfold StructName. sp. Qed.
Lemma sp_Contexts : spaced Contexts. Proof. unfold Contexts. sp. Qed.
#[local] Hint Resolve sp_Constraint sp_IntType sp_Len sp_StructName sp_Contexts : core.
Section Structs.
  Variable SD : prod struct.
  Hypothesis HSD : spaced SD.
  Lemma sp_StructRef : spaced (StructRef SD). Proof using HSD. unfold StructRef. sp. Qed.
  Hint Resolve sp_StructRef : core.
  Lemma sp_ArrayBase : spaced (ArrayBase SD). Proof using HSD. unfold ArrayBase. sp. Qed.
  Hint Resolve sp_ArrayBase : core.
  Lemma sp_Remainder : spaced (Remainder SD). Proof using HSD. unfold Remainder. sp. Qed.
  Lemma sp_Field : spaced (Field SD).
  Proof using HSD. unfold Field, FixedArray, VarArray, IntField, String_, StructField. sp. Qed.
  Hint Resolve sp_Remainder sp_Field : core.
  Lemma sp_Body : spaced (Body SD). Proof using HSD. unfold Body, Fields, Extent. sp. Qed.
  Hint Resolve sp_Body : core.
  Lemma sp_Union : spaced (Union SD). Proof using HSD. unfold Union, Case, CaseLabel. sp. Qed.
  Hint Resolve sp_Union : core.
  Lemma sp_Struct : spaced (Struct SD). Proof using HSD. unfold Struct, Member, Ending, Position. sp. Qed.
End Structs.
Lemma sp_StructN : forall n, spaced (StructN n).
Proof. induction n as [|n IH]; [intros a ss i r i' []|]. apply sp_Struct. exact IH. Qed.
Lemma sp_StructDecl : spaced StructDecl.
Proof.
  intros a ss i r i' [n H] E. destruct (sp_StructN n _ _ _ _ _ H E) as (r' & H' & E'). exists r'. split; auto. exists n. auto.
Qed.
#[local] Hint Resolve sp_StructDecl : core.
Lemma sp_Decl : spaced Decl.
Proof. unfold Decl, ConstDecl, ContextDecl, ContextField, StructDef, ExternDecl, PragmaDecl. sp. Qed.
#[local] Hint Resolve sp_Decl : core.
Lemma sp_File : spaced File_.
Proof. unfold File_. sp. Qed.

Theorem respaced_denotes : forall cs cs' f, respaced cs cs' -> Forall scalar cs -> Forall scalar cs' ->
  denotes (utf8 cs) f -> denotes (utf8 cs') f.
Proof.
  intros cs cs' f E S S' (cs0 & ds & inline & S0 & Eu & F & ->).
  assert (cs0 = cs).
  { rewrite <- (runes_utf8 _ S0), <- (runes_utf8 _ S). congruence. }
  subst cs0. destruct (sp_File _ _ _ _ _ F E) as (r' & F' & R). apply re_empty in R. subst r'.
  exists cs', ds, inline. auto.
Qed.
