(** Every file of the shape of [SyntaxForm] is denoted by some text. *)
From Coq Require Import ZArith String Ascii List Bool Lia ZifyBool ZifyNat.
From Verif Require Import Base Ast SyntaxSpec SyntaxForm PegUtf8 PegLexical PegSound PegComplete PegSpace PegShape.
Import ListNotations.
Open Scope string_scope.
Open Scope list_scope.
Open Scope Z_scope.

Definition plain (i : input) : Prop := match i with c :: _ => ~ separator c | [] => True end.

(** The value has a text: that of a token or of a sequence of closed phrases. *)
Definition word_text {A} (R : prod A) (a : A) (cs : list Z) : Prop :=
  Forall scalar cs /\ (forall r, plain (cs ++ r)) /\ (forall r, stops later_ r -> R a [] (cs ++ r) r).
Definition closed_text {A} (R : prod A) (a : A) (cs : list Z) : Prop :=
  Forall scalar cs /\ (forall r, plain r -> plain (cs ++ r)) /\ (forall r, plain r -> R a [] (cs ++ r) r).
Definition w1 {A} (R : prod A) (a : A) : Prop := exists cs, word_text R a cs.
Definition w0 {A} (R : prod A) (a : A) : Prop := exists cs, closed_text R a cs.

Lemma st : forall A B (R : prod A) (K : A -> prod B) a b i m r, R a [] i m -> K a b [] m r -> follow R K b [] i r.
Proof. intros. exists a, [], [], m. auto. Qed.
Lemma st_tok : forall w m, tok w tt [] (points w ++ m) m.
Proof. intros. split; auto. Qed.
Lemma st_gap : forall m, plain m -> gap tt [] m m.
Proof.
  intros m H. split; auto. apply blanks_end. intros r B. apply blank_head in B. destruct B as (c & k & -> & S). contradiction.
Qed.
Lemma st_gap1 : forall m, plain m -> gap1 tt [] (points " " ++ m) m.
Proof. intros m H. split; auto. exists m. split; [apply blank_char; cbn; auto|apply (st_gap m H)]. Qed.
Lemma st_gaps : forall m, plain m -> gap tt [] (points " " ++ m) m.
Proof. intros m H. split; auto. eapply blanks_more; [apply blank_char; cbn; auto|apply (st_gap m H)]. Qed.
Lemma st_empty : forall A (a : A) i, empty a a [] i i.
Proof. intros. repeat split. Qed.
Lemma st_as : forall A B (f : A -> B) (R : prod A) a i r, R a [] i r -> as_ f R (f a) [] i r.
Proof. intros. eapply st; [eassumption|apply st_empty]. Qed.
Lemma st_star : forall A (R : prod A) a l i m r, R a [] i m -> star R l [] m r -> star R (a :: l) [] i r.
Proof. intros A R a l i m r H1 H2. exact (star_cons R a l [] [] i m r H1 H2). Qed.

Ltac pl := first
  [ assumption
  | match goal with H : forall r, plain (?cs ++ r) |- plain (?cs ++ _) => apply H end
  | match goal with H : forall r, plain r -> plain (?cs ++ r) |- plain (?cs ++ _) => apply H; pl end
  | unfold plain, separator; cbn; lia ].
Ltac stp := first [assumption | reflexivity | exact I].
Ltac one := first
  [ apply st_tok | apply st_gap1; pl | apply st_gaps; pl | apply st_gap; pl | apply st_empty
  | match goal with H : forall r, stops later_ r -> ?R ?a [] (?cs ++ r) r |- ?R _ [] (?cs ++ _) _ => apply H; stp end
  | match goal with H : forall r, plain r -> ?R ?a [] (?cs ++ r) r |- ?R _ [] (?cs ++ _) _ => apply H; pl end ].
Ltac steps := repeat (eapply st; [solve [one]|cbv beta]); try solve [one].
Ltac open := repeat match goal with
  | H : w1 _ _ |- _ => let cs := fresh "t" in let a := fresh "S" in let b := fresh "B" in let c := fresh "W" in destruct H as (cs & a & b & c)
  | H : w0 _ _ |- _ => let cs := fresh "t" in let a := fresh "S" in let b := fresh "B" in let c := fresh "W" in destruct H as (cs & a & b & c)
  end.
Lemma points_scalar : forall w, forallb (fun c => (0 <=? c) && (c <? 128)) (points w) = true -> Forall scalar (points w).
Proof. intros w H. rewrite forallb_forall in H. apply Forall_forall. intros x X. specialize (H x X). unfold scalar. lia. Qed.
Ltac scal := repeat (apply Forall_app; split); first [assumption | apply points_scalar; reflexivity | idtac].
(** The text of a phrase; ends with the grammar goal. *)
Ltac text cs := exists cs; split; [scal|split; [let r := fresh "r" in intros r; rewrite <- ?app_assoc; solve [pl]
                                               |let r := fresh "r" in let H := fresh "Hr" in intros r H; rewrite <- ?app_assoc]].

(** ** Tokens *)
Lemma named_points : forall n, named (points n) = n.
Proof.
  intros n. unfold named, points. rewrite map_map. rewrite <- (string_of_list_ascii_of_string n) at 2. f_equal.
  rewrite <- (map_id (list_ascii_of_string n)) at 2. apply map_ext. intros a. unfold octet. rewrite N2Z.id. apply ascii_N_embedding.
Qed.
Lemma later_scalar : forall cs, forallb later_ cs = true -> Forall scalar cs.
Proof. intros cs H. rewrite forallb_forall in H. apply Forall_forall. intros x X. specialize (H x X). unfold scalar. chars. Qed.
Lemma w_Identifier : forall n, isIdentifier n -> w1 Identifier n.
Proof.
  intros n H. unfold isIdentifier in H. destruct (points n) as [|c cs] eqn:E; [destruct H|]. destruct H as [F Fs].
  exists (c :: cs). split; [apply later_scalar; cbn [forallb]; rewrite Fs; chars|]. split.
  - intros r. unfold plain, separator. cbn. chars.
  - intros r S. split; auto. exists c, cs. split; auto. split; auto. split; auto. split; auto. rewrite <- E. symmetry. apply named_points.
Qed.
Lemma w_ConstIdentifier : forall n, isConstant n -> w1 ConstIdentifier n.
Proof.
  intros n H. unfold isConstant in H. destruct (points n) as [|c cs] eqn:E; [destruct H|]. destruct H as [F Fs].
  exists (c :: cs). split; [apply later_scalar; cbn [forallb]; rewrite (upper_later _ Fs); chars|]. split.
  - intros r. unfold plain, separator. cbn. chars.
  - intros r S. split; auto. exists c, cs. split; auto. split; auto.
    split; [destruct r; cbn in *; auto; chars|]. split; auto. rewrite <- E. symmetry. apply named_points.
Qed.

Lemma decimal : forall v, 0 < v -> exists ds, forallb digit10 ds = true /\ valueOf 10 ds = v /\ ds <> [] /\ hd 0 ds <> 48.
Proof.
  intros v H. assert (K : 0 <= v) by lia. revert H. pattern v. apply Z_lt_induction; [|exact K]. clear v K. intros v IH H.
  destruct (Z_lt_le_dec v 10) as [L|L].
  - exists [48 + v]. cbn [forallb hd]. split; [chars|]. split; [|split; [discriminate|lia]].
    unfold valueOf. cbn [fold_left]. unfold digitValue, digit10, between. destruct ((48 <=? 48 + v) && (48 + v <=? 57)) eqn:E; lia.
  - pose proof (Z.div_mod v 10 ltac:(lia)) as D. pose proof (Z.mod_pos_bound v 10 ltac:(lia)) as M.
    destruct (IH (v / 10)) as (ds & F & V & N & Hd).
    + split; [apply Z.div_pos; lia|apply Z.div_lt; lia].
    + apply Z.div_str_pos. lia.
    + exists (ds ++ [48 + v mod 10]). split; [rewrite forallb_app, F; cbn [forallb]; chars|]. split.
      * unfold valueOf in *. rewrite fold_left_app, V. cbn [fold_left].
        unfold digitValue, digit10, between. destruct ((48 <=? 48 + v mod 10) && (48 + v mod 10 <=? 57)) eqn:E; lia.
      * split; [destruct ds; discriminate|]. destruct ds; [contradiction|]. exact Hd.
Qed.
Lemma w_Literal : forall v, isLiteral v -> w1 Literal v.
Proof.
  intros v [H1 H2]. destruct (Z.eq_dec v 0) as [->|N0].
  - exists [48]. split; [repeat constructor; unfold scalar; lia|]. split; [intros r; unfold plain, separator; cbn; lia|].
    intros r S. split; auto. split; [exact H2|]. right. right. right. split; auto.
    split; [destruct r; cbn in *; auto; chars|]. split; auto. intros (h & m & -> & _). cbn in S. discriminate.
  - destruct (decimal v ltac:(lia)) as (ds & F & V & N & Hd). exists ds.
    assert (L : forallb later_ ds = true) by (rewrite forallb_forall in *; intros x X; specialize (F x X); chars).
    split; [apply later_scalar; auto|]. split.
    + intros r. destruct ds as [|c ds]; [contradiction|]. cbn [forallb] in F. unfold plain, separator. cbn. chars.
    + intros r S. split; auto. split; [exact H2|]. right. right. left. exists ds. split; auto. split; auto.
      split; auto. split; auto. split; auto. destruct r; cbn in *; auto. chars.
Qed.
Lemma w_Int : forall i, goodInt i -> w1 Int i.
Proof.
  intros [n|v] H; [destruct (w_ConstIdentifier n H) as (t & S & B & W)|destruct (w_Literal v H) as (t & S & B & W)]; text t.
  - left. apply st_as. auto.
  - right. apply st_as. auto.
Qed.
Lemma w_Ref : forall x, goodRef x -> w1 Ref x.
Proof.
  intros [s n] [[->|Hs] Hn]; pose proof (w_Identifier n Hn).
  - open. text t. right. apply st_as. auto.
  - pose proof (w_Identifier s Hs). open. text (t ++ points "." ++ t0). left. steps.
Qed.
Lemma w_listOf : forall A (R : prod A) l, l <> [] -> Forall (w1 R) l -> w1 (listOf R) l.
Proof.
  intros A R l N H. destruct H as [|a l Ha Hl]; [contradiction|]. clear N.
  assert (K : exists cs, Forall scalar cs /\ (forall r, stops later_ r -> stops later_ (cs ++ r)) /\
    (forall r, stops later_ r -> star (gap ~~ tok "," ~~ gap ~~ R) l [] (cs ++ r) r)).
  { induction Hl as [|b l Hb Hl IH].
    - exists []. split; auto. split; auto. intros r _. constructor.
    - destruct IH as (cs & S1 & S2 & S3). open. exists (points "," ++ t ++ cs). split; [scal|]. split; [reflexivity|].
      intros r Hr. rewrite <- !app_assoc. eapply st_star; [|apply S3; exact Hr].
      eapply st; [one|]. eapply st; [one|]. eapply st; [one|]. apply W. auto. }
  destruct K as (cs & S1 & S2 & S3). open. text (t ++ cs). unfold listOf. eapply st; [apply W; auto|].
  eapply st; [apply S3; auto|]. one.
Qed.
Lemma w_Range : forall x, goodRange x -> w1 Range x.
Proof.
  intros [lo [hi|]] [H1 H2]; cbn in H1, H2; apply w_Int in H1; [apply w_Int in H2|]; open.
  - text (t0 ++ points ".." ++ t). right. steps.
  - text t. left. steps.
Qed.
Lemma w_ranges : forall l, goodList l -> w1 (listOf Range) l.
Proof. intros l [N F]. apply w_listOf; auto. eapply Forall_impl; [|exact F]. apply w_Range. Qed.
Lemma w_Constraint : forall l, goodList l -> w1 Constraint_ l.
Proof. intros l H. apply w_ranges in H. open. text (points "IN" ++ points " " ++ points "[" ++ t ++ points "]"). unfold Constraint_. steps. Qed.
Lemma w_IntType : forall n, isSize n -> w1 IntType n.
Proof.
  intros n H. cut (exists cs, Forall scalar cs /\ (forall r, plain (cs ++ r)) /\ forall r, IntType n [] (cs ++ r) r).
  { intros (cs & S & B & W). exists cs. split; auto. }
  destruct H as [<-|[<-|[<-|[<-|[]]]]].
  - exists (points "u8"). split; [scal|]. split; [let q := fresh "q" in intros q; first [pl | intros _; pl]|]. intros r. eapply st; [apply (st_tok "u")|].
    left. left. left. apply (st_as _ _ (fun _ => 8) (tok "8") tt). apply (st_tok "8").
  - exists (points "u16"). split; [scal|]. split; [let q := fresh "q" in intros q; first [pl | intros _; pl]|]. intros r. eapply st; [apply (st_tok "u")|].
    left. left. right. apply (st_as _ _ (fun _ => 16) (tok "16") tt). apply (st_tok "16").
  - exists (points "u32"). split; [scal|]. split; [let q := fresh "q" in intros q; first [pl | intros _; pl]|]. intros r. eapply st; [apply (st_tok "u")|].
    left. right. apply (st_as _ _ (fun _ => 32) (tok "32") tt). apply (st_tok "32").
  - exists (points "u64"). split; [scal|]. split; [let q := fresh "q" in intros q; first [pl | intros _; pl]|]. intros r. eapply st; [apply (st_tok "u")|].
    right. apply (st_as _ _ (fun _ => 64) (tok "64") tt). apply (st_tok "64").
Qed.
Lemma w_Len : forall l, goodLength l -> w1 Len l.
Proof.
  intros [x|i] H; [apply w_Ref in H|apply w_Int in H]; open.
  - text t. right. apply st_as. auto.
  - text (points "..-" ++ t). left. eapply st; [one|]. apply st_as. auto.
Qed.
Lemma w_StructName : forall n, isIdentifier n -> w1 StructName n.
Proof. intros n H. apply w_Identifier in H. open. text (points "struct" ++ points " " ++ t). unfold StructName. steps. Qed.
Lemma w_Contexts : forall l, Forall isIdentifier l -> exists cs, Forall scalar cs /\
  (forall r, Contexts l [] (cs ++ points " " ++ points "{" ++ r) (points " " ++ points "{" ++ r)) /\
  (forall r, Contexts l [] (cs ++ points " " ++ points ";" ++ r) (points " " ++ points ";" ++ r)) /\
  (forall r, stops later_ r -> stops later_ (cs ++ r)).
Proof.
  intros l H. destruct l as [|n l].
  - exists []. split; auto. split; [|split]; auto; intros r; right; apply st_empty.
  - assert (W : w1 (listOf Identifier) (n :: l)).
    { apply w_listOf; [discriminate|]. eapply Forall_impl; [|exact H]. apply w_Identifier. }
    open. exists (points " " ++ points "with" ++ points " " ++ points "context" ++ points " " ++ t).
    split; [scal|]. split; [|split; [|reflexivity]]; intros r; rewrite <- !app_assoc; left; steps.
Qed.

(** ** Members *)
Definition member_text {A} (R : prod A) (a : A) : Prop := exists cs, Forall scalar cs /\
  (forall r, plain (cs ++ r)) /\ (forall r, R a [] (cs ++ points ";" ++ r) (points ";" ++ r)).
Definition closed {A} (R : prod A) (a : A) : Prop := exists cs, Forall scalar cs /\
  (forall r, plain (cs ++ r)) /\ (forall r, R a [] (cs ++ r) r).
Lemma w_ended : forall A (R : prod A) a, member_text R a -> closed (ended R) a.
Proof.
  intros A R a (cs & S & B & W). exists (cs ++ points ";"). split; [scal|]. split; [intros r; rewrite <- app_assoc; pl|].
  intros r. rewrite <- app_assoc. unfold ended. eapply st; [one|]. eapply st; [apply W|]. steps.
Qed.
(** Sequences of closed phrases. *)
Definition series {A} (R : prod A) (a : A) : Prop := exists cs, Forall scalar cs /\
  (forall r, plain r -> plain (cs ++ r)) /\ (forall r, R a [] (cs ++ r) r).
Lemma w_star : forall A (R : prod A) l, Forall (closed R) l -> series (star R) l.
Proof.
  intros A R l H. induction H as [|a l (cs & S & B & W) Hl (ds & S1 & B1 & W1)].
  - exists []. split; auto. split; auto. intros r. constructor.
  - exists (cs ++ ds). split; [scal|]. split; [intros r _; rewrite <- app_assoc; pl|]. intros r. rewrite <- app_assoc.
    eapply st_star; [apply W|apply W1].
Qed.
Lemma w_maybe : forall A (R : prod A) o, match o with Some a => closed R a | None => True end -> series (maybe R) o.
Proof.
  intros A R [a|] H.
  - destruct H as (cs & S & B & W). exists cs. split; auto.
  - exists []. split; auto. split; auto. intros r. split; auto.
Qed.

Ltac member cs := exists cs; split; [scal|split; [let q := fresh "q" in intros q; rewrite <- ?app_assoc; solve [pl]|intros r; rewrite <- ?app_assoc]].

Section Members.
  Variable SD : prod struct.
  Lemma w_ArrayBase : forall t, element t -> w1 (ArrayBase SD) t.
  Proof using.
    intros t H. destruct H as [n H | | n H].
    - apply w_IntType in H. open. text t. left. left. apply (st_as _ _ (fun n => TInt n None) IntType n). auto.
    - text (points "char"). left. right. apply (st_as _ _ (fun _ => TChar) (tok "char") tt). apply (st_tok "char").
    - apply w_StructName in H. open. text t. right. right. apply st_as. auto.
  Qed.
  Lemma w_Remainder : forall m, remainder m -> member_text (Remainder SD) m.
  Proof using.
    intros m [n t Hn Ht]. apply w_Identifier in Hn. apply w_ArrayBase in Ht. open.
    member (t0 ++ points " " ++ t1 ++ points "[" ++ points "]"). unfold Remainder. steps.
  Qed.
  Lemma notConstant_of : forall l, goodLength l -> variable l -> notConstant l.
  Proof using.
    intros [[s n]|i] G V; auto. cbn in *. intros E C. apply (V E). destruct G as [_ G].
    unfold isConstant, isIdentifier, constantName in *. destruct (points n) as [|c cs]; [destruct G|].
    destruct C as [C1 C2]. cbn [forallb hd] in *. apply andb_prop in C1. destruct C1 as [C1 C3]. split; auto. chars.
  Qed.
  Lemma w_Field : forall m, goodField m -> member_text (Field SD) m.
  Proof using.
    intros m H. destruct H as [n t Hn Ht | n t l Hn Ht Hl | n Hn | n s Hn Hs | n t i Hn Ht Hi | n t l Hn Ht Hl V].
    - destruct (w_Identifier _ Hn) as (cn & Sn & Bn & Wn). destruct (w_IntType _ Ht) as (ct & St & Bt & Wt).
      member (ct ++ points " " ++ cn). left. left. right. unfold IntField. do 4 (eapply st; [one|]).
      eapply st; [|apply st_empty]. split; auto.
    - destruct (w_Identifier _ Hn) as (cn & Sn & Bn & Wn). destruct (w_IntType _ Ht) as (ct & St & Bt & Wt).
      destruct (w_Constraint _ Hl) as (cl & Sl & Bl & Wl).
      member (ct ++ points " " ++ cn ++ points " " ++ cl). left. left. right. unfold IntField. do 4 (eapply st; [one|]).
      eapply st; [|apply st_empty]. cbn [maybe]. apply Wl. stp.
    - destruct (w_Identifier _ Hn) as (cn & Sn & Bn & Wn). member (points "nulterm" ++ points " " ++ cn).
      left. right. unfold String_. steps.
    - destruct (w_Identifier _ Hn) as (cn & Sn & Bn & Wn). destruct (w_StructName _ Hs) as (ct & St & Bt & Wt).
      member (ct ++ points " " ++ cn). right. unfold StructField. eapply st; [right; apply st_as; apply Wt; stp|]. steps.
    - destruct (w_Identifier _ Hn) as (cn & Sn & Bn & Wn). destruct (w_ArrayBase _ Ht) as (ct & St & Bt & Wt).
      destruct (w_Int _ Hi) as (ci & Si & Bi & Wi). member (ct ++ points " " ++ cn ++ points "[" ++ ci ++ points "]").
      left. left. left. left. unfold FixedArray. steps.
    - destruct (w_Identifier _ Hn) as (cn & Sn & Bn & Wn). destruct (w_ArrayBase _ Ht) as (ct & St & Bt & Wt).
      destruct (w_Len _ Hl) as (ci & Si & Bi & Wi). member (ct ++ points " " ++ cn ++ points "[" ++ ci ++ points "]").
      left. left. left. right. unfold VarArray. do 5 (eapply st; [one|]). eapply st; [|steps].
      split; [apply Wi; stp|]. apply notConstant_of; auto.
  Qed.
  Lemma w_fields : forall ms, Forall goodField ms -> series (star (ended (Field SD))) ms.
  Proof using.
    intros ms H. apply w_star. eapply Forall_impl; [|exact H]. intros m G. apply w_ended, w_Field, G.
  Qed.
  Lemma w_Fields : forall ms e, Forall goodField ms -> match e with Some m => m = MIgnore \/ remainder m | None => True end ->
    series (Body SD) (ms ++ match e with Some m => [m] | None => [] end).
  Proof using.
    intros ms e H He. destruct (w_fields ms H) as (cs & S & B & W).
    assert (K : series (maybe (ended (Extent SD))) e).
    { apply w_maybe. destruct e as [m|]; auto. apply w_ended. destruct He as [->|He].
      - member (points "..."). left. apply (st_as _ _ (fun _ => MIgnore) (tok "...") tt). apply (st_tok "...").
      - destruct (w_Remainder m He) as (ds & S1 & B1 & W1). member ds. right. apply W1. }
    destruct K as (ds & S1 & B1 & W1). exists (cs ++ ds). split; [scal|].
    split; [intros r Hr; rewrite <- app_assoc; pl|]. intros r. rewrite <- app_assoc. right. unfold Fields.
    eapply st; [apply W|]. eapply st; [apply W1|]. one.
  Qed.
  Lemma w_Body : forall ms, goodBody ms -> series (Body SD) ms.
  Proof using.
    intros ms H. destruct H as [ms H | ms m H Hm | ms H | ].
    - rewrite <- (app_nil_r ms). apply (w_Fields ms None H I).
    - apply (w_Fields ms (Some m)); auto.
    - apply (w_Fields ms (Some MIgnore)); auto.
    - exists (points "fail;"). split; [scal|]. split; [let q := fresh "q" in intros q; first [pl | intros _; pl]|]. intros r. left. left. right. unfold ended.
      eapply st; [one|]. eapply st.
      + apply (st_as _ _ (fun _ => [MFail]) (tok "fail") tt). apply (st_tok "fail" (points ";" ++ r)).
      + steps.
  Qed.
  Lemma w_Case : forall c, goodCase c -> closed (Case SD) c.
  Proof using.
    intros [l ms] [Hl Hms]. destruct (w_Body ms Hms) as (cb & Sb & Bb & Wb).
    assert (K : w1 CaseLabel l).
    { destruct l as [l|].
      - apply w_ranges in Hl. open. text t. left. apply st_as. auto.
      - text (points "default"). right. apply (st_as _ _ (fun _ => None) (tok "default") tt). apply (st_tok "default"). }
    destruct K as (cl & Sl & Bl & Wl). member (cl ++ points ":" ++ cb). unfold Case.
    do 4 (eapply st; [one|]). eapply st; [apply Wb|]. one.
  Qed.
  Lemma w_Union : forall n t l cs, isIdentifier n -> goodRef t -> match l with Some l => goodLength l | None => True end ->
    Forall goodCase cs -> closed (Union SD) (MUnion n t l cs).
  Proof using.
    intros n t l cs Hn Ht Hl Hc. destruct (w_Identifier _ Hn) as (cn & Sn & Bn & Wn). destruct (w_Ref _ Ht) as (ct & St & Bt & Wt).
    assert (K : series (star (Case SD)) cs).
    { apply w_star. eapply Forall_impl; [|exact Hc]. apply w_Case. }
    destruct K as (cc & Sc & Bc & Wc).
    assert (K : exists cl, Forall scalar cl /\ (forall r, plain (cl ++ points "{" ++ r)) /\ forall r,
      maybe (tok "with" ~~ gap1 ~~ tok "length" ~~ gap1 ~~ Len) l [] (cl ++ points "{" ++ r) (points "{" ++ r)).
    { destruct l as [l|].
      - destruct (w_Len _ Hl) as (cl & S & B & W). exists (points "with" ++ points " " ++ points "length" ++ points " " ++ cl).
        split; [scal|]. split; [let q := fresh "q" in intros q; first [pl | intros _; pl]|]. intros r. rewrite <- !app_assoc. cbn [maybe]. steps.
      - exists []. split; auto. split; [let q := fresh "q" in intros q; first [pl | intros _; pl]|]. intros r. split; auto. }
    destruct K as (cl & Sl & Bl & Wl).
    member (points "union" ++ points " " ++ cn ++ points "[" ++ ct ++ points "]" ++ cl ++ points "{" ++ cc ++ points "}").
    unfold Union. do 7 (eapply st; [one|]). eapply st; [apply st_gap; apply Bl|].
    eapply st; [apply Wl|]. do 2 (eapply st; [one|]). eapply st; [apply Wc|]. steps.
  Qed.
  Lemma closed_member : forall A (R : prod A) a, closed R a -> member_text R a.
  Proof using. intros A R a (cs & S & B & W). exists cs. auto. Qed.
  Lemma w_Member : forall m, goodMember m -> member_text (Member SD) m.
  Proof using.
    intros m H. destruct H as [m H | n H | n t l cs Hn Ht Hl Hc].
    - destruct (w_Field m H) as (cs & S & B & W). exists cs. split; auto. split; auto. intros r. left. left. apply W.
    - apply w_Identifier in H. open. member (points "@ptr" ++ points " " ++ t). left. right. unfold Position. steps.
    - destruct (closed_member _ _ _ (w_Union n t l cs Hn Ht Hl Hc)) as (k & S & B & W).
      exists k. split; auto. split; auto. intros r. right. apply W.
  Qed.
  Lemma w_Struct : forall n c ms e, isIdentifier n -> Forall isIdentifier c -> Forall goodMember ms ->
    match e with Some m => m = MEOS \/ remainder m | None => True end ->
    closed (Struct SD) (mkStruct n c (Some (ms ++ match e with Some m => [m] | None => [] end))).
  Proof using.
    intros n c ms e Hn Hc Hms He. destruct (w_StructName _ Hn) as (cn & Sn & Bn & Wn).
    destruct (w_Contexts _ Hc) as (cc & Sc & Wc & _ & Pc).
    assert (K : series (star (ended (Member SD))) ms).
    { apply w_star. eapply Forall_impl; [|exact Hms]. intros m G. apply w_ended, w_Member, G. }
    destruct K as (cm & Sm & Bm & Wm).
    assert (K : series (maybe (ended (Ending SD))) e).
    { apply w_maybe. destruct e as [m|]; auto. apply w_ended. destruct He as [->|He].
      - member (points "eos"). right. apply (st_as _ _ (fun _ => MEOS) (tok "eos") tt). apply (st_tok "eos").
      - destruct (w_Remainder m He) as (ds & S1 & B1 & W1). exists ds. split; auto. split; auto. intros r. left. apply W1. }
    destruct K as (ce & Se & Be & We).
    member (cn ++ cc ++ points " " ++ points "{" ++ cm ++ ce ++ points "}"). unfold Struct.
    eapply st; [apply Wn; apply Pc; reflexivity|]. eapply st; [apply Wc|]. do 2 (eapply st; [one|]).
    eapply st; [apply Wm|]. eapply st; [apply We|]. steps.
  Qed.
End Members.

(** ** Declarations *)
Lemma w_gap : forall A (R : prod A) a, closed R a -> closed (gap ~~ R) a.
Proof. intros A R a (cs & S & B & W). exists cs. split; auto. split; auto. intros r. eapply st; [one|]. apply W. Qed.
Lemma w_alt : forall A (R1 R2 : prod A) a, closed R1 a \/ closed R2 a -> closed (either R1 R2) a.
Proof. intros A R1 R2 a [(cs & S & B & W)|(cs & S & B & W)]; exists cs; split; auto; split; auto; intros r; [left|right]; apply W. Qed.

Lemma w_StructDef : forall s ms, smembers s = Some ms -> goodStruct s -> closed StructDef (Struct_ s).
Proof.
  intros [n c o] ms E (Hn & Hc & Hm). cbn in *. subst o.
  assert (K : closed StructDecl (mkStruct n c (Some ms))).
  { cut (closed (StructN 1) (mkStruct n c (Some ms))).
    - intros (cs & S & B & W). exists cs. split; auto. split; auto. intros r. exists 1%nat. apply W.
    - cbn [StructN]. destruct Hm as [ms H | ms m H R | ms H].
      + rewrite <- (app_nil_r ms). apply (w_Struct _ n c ms None); auto.
      + apply (w_Struct _ n c ms (Some m)); auto.
      + apply (w_Struct _ n c ms (Some MEOS)); auto. }
  destruct K as (cs & S & B & W). member cs. unfold StructDef. eapply st; [apply W|].
  eapply st; [|apply st_empty]. instantiate (1 := None). split; auto.
Qed.
Lemma w_ContextField : forall x, goodContextField x -> closed ContextField x.
Proof.
  intros [n t] [Hn (k & Hk & Ht)]. cbn in Hn, Ht. subst t. apply w_ended.
  destruct (w_Identifier _ Hn) as (cn & Sn & Bn & Wn). destruct (w_IntType _ Hk) as (ct & St & Bt & Wt).
  member (ct ++ points " " ++ cn). steps.
Qed.
Lemma w_Decl : forall d, goodDecl d -> closed Decl d.
Proof.
  intros d H. unfold Decl. apply w_gap. destruct d as [[n v]|[n fs]|s|[n l]]; cbn in H.
  - apply w_alt. left. apply w_alt. left. apply w_alt. left. apply w_alt. left. destruct H as [Hn Hv]. cbn in Hn, Hv.
    destruct (w_ConstIdentifier _ Hn) as (cn & Sn & Bn & Wn). destruct (w_Literal _ Hv) as (ct & St & Bt & Wt).
    member (points "const" ++ points " " ++ cn ++ points "=" ++ ct ++ points ";"). unfold ConstDecl. steps.
  - apply w_alt. left. apply w_alt. left. apply w_alt. left. apply w_alt. right. destruct H as [Hn Hv]. cbn in Hn, Hv.
    destruct (w_Identifier _ Hn) as (cn & Sn & Bn & Wn).
    assert (K : series (star ContextField) fs).
    { apply w_star. eapply Forall_impl; [|exact Hv]. apply w_ContextField. }
    destruct K as (cf & Sf & Bf & Wf).
    member (points "context" ++ points " " ++ cn ++ points " " ++ points "{" ++ cf ++ points "}"). unfold ContextDecl.
    do 5 (eapply st; [one|]). eapply st; [apply Wf|]. do 2 (eapply st; [one|]).
    eapply st; [|apply st_empty]. instantiate (1 := None). split; auto.
  - destruct (smembers s) as [ms|] eqn:E.
    + apply w_alt. left. apply w_alt. left. apply w_alt. right. eapply w_StructDef; eauto.
    + apply w_alt. left. apply w_alt. right. destruct s as [n c o]. cbn in E. subst o. destruct H as (Hn & Hc & _). cbn in Hn, Hc.
      destruct (w_StructName _ Hn) as (cn & Sn & Bn & Wn). destruct (w_Contexts _ Hc) as (cc & Sc & _ & Wc & Pc).
      member (points "extern" ++ points " " ++ cn ++ cc ++ points " " ++ points ";"). unfold ExternDecl.
      do 2 (eapply st; [one|]). eapply st; [apply Wn; apply Pc; reflexivity|]. eapply st; [apply Wc|]. steps.
  - apply w_alt. right. destruct H as (Hn & Hl & Fl). cbn in Hn, Hl, Fl.
    destruct (w_Identifier _ Hn) as (cn & Sn & Bn & Wn).
    assert (K : w1 (listOf Identifier) l).
    { apply w_listOf; auto. eapply Forall_impl; [|exact Fl]. apply w_Identifier. }
    destruct K as (cl & Sl & Bl & Wl). member (points "trunnel" ++ points " " ++ cn ++ points " " ++ cl ++ points ";").
    unfold PragmaDecl. steps.
Qed.

Theorem shaped_denotes : forall f, shaped f -> exists data, denotes data f.
Proof.
  intros [ks cs ss ps] (H1 & H2 & H3 & H4). cbn in H1, H2, H3, H4.
  set (ds := map Const_ ks ++ map Context_ cs ++ map Struct_ ss ++ map Pragma_ ps).
  assert (K : series (star Decl) ds).
  { apply w_star. unfold ds. rewrite !Forall_app. repeat split; apply Forall_map;
    (eapply Forall_impl; [|eassumption]); intros x X; apply w_Decl; exact X. }
  destruct K as (t & S & B & W). exists (utf8 t), t, ds, []. split; auto. split; auto. split.
  - unfold File_. rewrite <- (app_nil_r t). eapply st; [apply W|]. eapply st; [apply st_gap; exact I|]. apply st_empty.
  - unfold SyntaxSpec.fileOf, ds. rewrite !flat_map_app, app_nil_r.
    assert (P : forall A B C (g : B -> list C) (h : A -> B) l, flat_map g (map h l) = flat_map (fun x => g (h x)) l).
    { intros A0 B0 C0 g h l. induction l; cbn; congruence. }
    rewrite !P. cbn beta iota.
    assert (N : forall A B (l : list A), flat_map (fun _ => @nil B) l = []) by (intros A0 B0 l; induction l; auto).
    assert (O : forall A (l : list A), flat_map (fun x => [x]) l = l) by (intros A0 l; induction l; cbn; congruence).
    rewrite !N, !O, ?app_nil_r. reflexivity.
Qed.
