(** What a user sees of a source: the file or the reports. *)
From Coq Require Import ZArith String Ascii List Bool Lia ZifyBool ZifyNat Permutation OrderedTypeEx.
From Verif Require Import Base Ast PegModel PegGrammar PegEngine PegRunes PegDescent PegConsume PegRefine PegRules PegTop
  PegUtf8 SyntaxSpec PegReport PegReportProofs ReportSpec PegPlace.
Import ListNotations.
Open Scope string_scope.
Open Scope list_scope.
Open Scope Z_scope.

(* ---------- fuel ---------- *)

Lemma bind_keepR : forall A B (x y : outcome A) (f h : A -> outcome B),
  (halted x -> y = x) -> (forall a, x = Ok a -> halted (f a) -> h a = f a) ->
  halted (a <- x ;; f a) -> (a <- y ;; h a) = (a <- x ;; f a).
Proof.
  intros A B x y f h H1 H2 H. destruct x; try (rewrite H1 by discriminate; auto; fail); [|contradiction H; reflexivity].
  rewrite H1 by discriminate. cbn [bind] in *. auto.
Qed.

Section Fuel.
Variable rules : grammar.
Lemma keepsR : forall n,
  (forall rule e f s, halted (exprR rules n rule e f s) -> exprR rules (S n) rule e f s = exprR rules n rule e f s) /\
  (forall rule e f s, halted (altsR rules n rule e f s) -> altsR rules (S n) rule e f s = altsR rules n rule e f s) /\
  (forall rule e f s, halted (seqR rules n rule e f s) -> seqR rules (S n) rule e f s = seqR rules n rule e f s) /\
  (forall rule e s, halted (loopR rules n rule e s) -> loopR rules (S n) rule e s = loopR rules n rule e s).
Proof.
  induction n as [|n (He & Ha & Hs & Hl)].
  - repeat split; intros; exfalso; apply H; reflexivity.
  - repeat split; intros.
    + rewrite exprR_S in H. rewrite exprR_S. rewrite (exprR_S rules n). cbv zeta in *.
      destruct e; auto; try (revert H; apply bind_keepR; auto; intros; fail).
      destruct (alookup name rules); auto. revert H; apply bind_keepR; auto.
    + rewrite altsR_S in H. rewrite altsR_S. rewrite (altsR_S rules n).
      destruct e; auto. revert H; apply bind_keepR; auto.
      intros [[[ok v] f'] s'] _. destruct ok; auto.
    + rewrite seqR_S in H. rewrite seqR_S. rewrite (seqR_S rules n).
      destruct e; auto. revert H; apply bind_keepR; auto.
      intros [[[ok v] f'] s'] _. destruct ok; auto. apply bind_keepR; auto.
    + rewrite loopR_S in H. rewrite loopR_S. rewrite (loopR_S rules n).
      revert H; apply bind_keepR; auto.
      intros [[[ok v] f'] s'] _. destruct ok; auto. apply bind_keepR; auto.
Qed.
Lemma exprR_mono : forall n m rule e f s, (n <= m)%nat -> halted (exprR rules n rule e f s) ->
  exprR rules m rule e f s = exprR rules n rule e f s.
Proof.
  induction 1 as [|m Hle IH]; auto. intros H. rewrite <- IH by auto.
  destruct (keepsR m) as (He & _). apply He. rewrite IH; auto.
Qed.
End Fuel.

(* ---------- the top ---------- *)

(** The answer, with any sufficient fuel. *)
Definition answers (order : list string -> list string) (filename : string) (data : text) (r : reported) : Prop :=
  exists n, forall m, (n <= m)%nat -> parseR order m filename data = Some r.

Lemma answers_fun : forall order fn data r1 r2, answers order fn data r1 -> answers order fn data r2 -> r1 = r2.
Proof.
  intros order fn data r1 r2 [n H1] [m H2]. specialize (H1 (Nat.max n m) ltac:(lia)).
  specialize (H2 (Nat.max n m) ltac:(lia)). congruence.
Qed.

Lemma answers_some : forall order fn data n r, parseR order n fn data = Some r -> answers order fn data r.
Proof.
  intros order fn data n r H. exists n. intros m L. unfold parseR in *.
  destruct (exprR g n "" (ERule "File") [] (startR data)) eqn:E; try discriminate.
  all: rewrite (exprR_mono g n m); [|exact L|rewrite E; discriminate]; rewrite E; exact H.
Qed.

Lemma erase_ok : forall x ok v f b, erase x = Ok (ok, v, f, b) -> exists s, x = Ok (ok, v, f, s) /\ base s = b.
Proof.
  intros [[[[ok0 v0] f0] s0]| | |] ok v f b H; try discriminate. cbn [erase bind] in H. inversion H; subst. eauto.
Qed.

(** The engine always comes back, without a panic. *)
Lemma file_runs : forall data, exists ok v s n,
  forall m, (n <= m)%nat -> exprR g m "" (ERule "File") [] (startR data) = Ok (ok, v, [], s).
Proof.
  intros data.
  set (n := S (length (runes data))).
  assert (R : srel (base (startR data)) (PegTop.start (runes data))).
  { rewrite base_start. destruct (invalid data); split; reflexivity. }
  pose proof (R_File (length (runes data)) n ltac:(unfold n; lia) [] _ _ R (le_n _)) as H.
  assert (H1 : exists ok v s', runs g (ERule "File") [] (base (startR data)) (ok, v, [], s')).
  { destruct (fileP n (PegTop.start (runes data))).
    - destruct H as (s' & H1 & _). eauto.
    - destruct H as (v & s' & H1 & _). eauto. }
  destruct H1 as (ok & v & b & k & K). rewrite <- expr_erases with (rule := "") in K.
  apply erase_ok in K as (s & K & _). exists ok, v, s, k. intros m L.
  rewrite (exprR_mono g k m) by (auto; rewrite K; discriminate). exact K.
Qed.

Lemma dedupe_incl : forall fn l seen, incl (dedupe fn seen l) l.
Proof.
  induction l as [|r l IH]; intros seen; cbn [dedupe]; [intros x []|].
  destruct (existsb _ seen); intros x J; [right; eapply IH; eauto|].
  destruct J as [<-|J]; [left; reflexivity|right; eapply IH; eauto].
Qed.
Lemma dedupe_nil : forall fn l, dedupe fn [] l = [] -> l = [].
Proof. intros fn [|r l] H; [reflexivity|discriminate]. Qed.

Lemma answer : forall order fn data, exists ok v s n,
  (forall m, (n <= m)%nat -> exprR g m "" (ERule "File") [] (startR data) = Ok (ok, v, [], s)) /\
  placed data s /\
  answers order fn data
    (match dedupe fn [] (if ok then reports s else match reports s with [] => [noMatch order s] | l => l end) with
     | [] => RValue v | l => RErrors l end) /\
  returns data (cast (if ok : bool then match errs (base s) with [] => PValue v | _ => PErrors end else PErrors)) /\
  length (reports s) = length (errs (base s)).
Proof.
  intros order fn data. destruct (file_runs data) as (ok & v & s & n & H). exists ok, v, s, n.
  pose proof (H n (le_n _)) as Hn. split; [exact H|]. split; [|split; [|split]].
  - eapply placed_expr; [apply placed_start|exact Hn].
  - exists n. intros m L. unfold parseR. rewrite (H m L). reflexivity.
  - apply (returns_some data n). unfold parseString, parseFrom. rewrite <- base_start, <- expr_erases with (rule := "").
    rewrite Hn. cbn [erase bind]. destruct ok; reflexivity.
  - eapply synced_expr; [apply synced_start|exact Hn].
Qed.

(** The reporting engine gives exactly the files of [PegModel], and a list of
    reports otherwise. *)
Lemma exactly : forall order fn data,
  (exists f, returns data (Ok f) /\ answers order fn data (RValue (VFile f))) \/
  (exists l, returns data failed /\ l <> [] /\ answers order fn data (RErrors l)).
Proof.
  intros order fn data. destruct (answer order fn data) as (ok & v & s & n & _ & _ & A & R & L).
  destruct (returns_either data) as [(f & F)|F]; pose proof (returns_fun _ _ _ R F) as E.
  - left. exists f. split; auto. destruct ok; [|discriminate]. destruct (errs (base s)); [|discriminate].
    destruct (reports s); [|discriminate]. cbn [dedupe] in A. destruct v; try discriminate. cbn in E. inversion E; subst. exact A.
  - right. destruct (dedupe fn [] (if ok then reports s else match reports s with [] => [noMatch order s] | l => l end)) as [|r l] eqn:D.
    + exfalso. apply dedupe_nil in D. destruct ok.
      * rewrite D in L. destruct (errs (base s)); [|discriminate].
        destruct v; discriminate.
      * destruct (reports s); discriminate.
    + exists (r :: l). split; auto. split; auto. discriminate.
Qed.

(* ---------- positions ---------- *)

(** A position that [at_] accepts, in terms of the code points before it. *)
Lemma at_user : forall data p us t, atSome data p -> Forall scalar us -> data = utf8 us ++ t ->
  0 <= offset p <= Z.of_nat (length (utf8 us)) ->
  exists a b, us = a ++ b /\ offset p = Z.of_nat (length (utf8 a)) /\
    ((line p, col p) = (lineAfter a, colAfter a) \/
     (line p, col p) = (lineAfter a + 1, 0) /\ fst (DecodeRune (utf8 b ++ t)) = 10).
Proof.
  intros data p us t [->|(r & cs & S & E & O)] F D B.
  - exists [], us. repeat split; auto.
  - pose proof (steps_len _ _ _ S) as SL.
    destruct (steps_prefix _ _ _ S us t F D ltac:(lia)) as (b & -> & ->). exists cs, b. split; auto. split.
    + rewrite O. rewrite D. unfold utf8. rewrite flat_map_app, !app_length. lia.
    + unfold after in E. destruct (_ =? 10) eqn:N; [right|left]; auto. split; auto. lia.
Qed.
Lemma at_range : forall data p, atSome data p -> 0 <= offset p <= Z.of_nat (length data).
Proof.
  intros data p [->|(r & cs & S & E & O)]; [cbn; lia|]. pose proof (steps_len _ _ _ S). lia.
Qed.
Lemma report_placed : forall order fn data l r, answers order fn data (RErrors l) -> In r l -> atSome data (rpos r).
Proof.
  intros order fn data l r A J. destruct (answer order fn data) as (ok & v & s & n & _ & P & A' & _).
  pose proof (answers_fun _ _ _ _ _ A A') as E. clear A A'.
  destruct (dedupe fn [] (if ok then reports s else match reports s with [] => [noMatch order s] | l => l end)) as [|r0 l0] eqn:D; [discriminate|].
  inversion E; subst l. rewrite <- D in J. apply dedupe_incl in J. destruct P as [_ PF PR].
  destruct ok; [auto|]. destruct (reports s) as [|r1 l1] eqn:Er; [|rewrite <- Er in *; auto].
  destruct J as [<-|[]]. exact PF.
Qed.

(* ---------- the order of the expected things ---------- *)

Lemma compare_cmp : forall a b, String.compare a b = String_as_OT.cmp a b.
Proof. reflexivity. Qed.
Lemma leString_total : forall a b, leString a b = true \/ leString b a = true.
Proof. intros a b. unfold leString. rewrite (String.compare_antisym b a). destruct (String.compare a b); cbn; auto. Qed.
Lemma leString_anti : forall a b, leString a b = true -> leString b a = true -> a = b.
Proof.
  intros a b. unfold leString. rewrite (String.compare_antisym b a). destruct (String.compare a b) eqn:E; cbn; try discriminate.
  intros _ _. now apply String.compare_eq_iff.
Qed.
Lemma leString_le : forall a b, leString a b = true <-> a = b \/ String_as_OT.lt a b.
Proof.
  intros a b. unfold leString. rewrite compare_cmp. pose proof (String_as_OT.cmp_eq a b) as E. pose proof (String_as_OT.cmp_lt a b) as L.
  destruct (String_as_OT.cmp a b); split; intros H; try tauto; try discriminate.
  destruct H as [H|H]; [apply E in H|apply L in H]; discriminate.
Qed.
Lemma leString_trans : forall a b c, leString a b = true -> leString b c = true -> leString a c = true.
Proof.
  intros a b c. rewrite !leString_le. intros [->|H1] [->|H2]; auto. right. eapply String_as_OT.lt_trans; eauto.
Qed.
Lemma insert_comm : forall x y l, insertString x (insertString y l) = insertString y (insertString x l).
Proof.
  intros x y. induction l as [|z l IH]; cbn [insertString].
  - destruct (leString x y) eqn:A, (leString y x) eqn:B; auto.
    + now rewrite (leString_anti _ _ A B).
    + destruct (leString_total x y); congruence.
  - destruct (leString y z) eqn:YZ, (leString x z) eqn:XZ; cbn [insertString]; rewrite ?YZ, ?XZ.
    + destruct (leString x y) eqn:A, (leString y x) eqn:B; auto.
      * now rewrite (leString_anti _ _ A B).
      * destruct (leString_total x y); congruence.
    + destruct (leString x y) eqn:A; [|reflexivity]. rewrite (leString_trans _ _ _ A YZ) in XZ. discriminate.
    + destruct (leString y x) eqn:A; [|reflexivity]. rewrite (leString_trans _ _ _ A XZ) in YZ. discriminate.
    + now rewrite IH.
Qed.
Lemma sort_perm : forall a b, Permutation a b -> sortStrings a = sortStrings b.
Proof.
  unfold sortStrings. induction 1; cbn [fold_right]; auto; [now rewrite IHPermutation|apply insert_comm|congruence].
Qed.
Lemma order_irrelevant : forall o1 o2 n fn data, (forall l, Permutation l (o1 l)) -> (forall l, Permutation l (o2 l)) ->
  parseR o1 n fn data = parseR o2 n fn data.
Proof.
  intros o1 o2 n fn data H1 H2. unfold parseR. destruct (exprR g n "" (ERule "File") [] (startR data)) as [[[[ok v] f'] s]| | |]; auto.
  assert (E : noMatch o1 s = noMatch o2 s).
  { assert (X : expectedList o1 (wants s) = expectedList o2 (wants s)).
    { unfold expectedList. f_equal. apply sort_perm. now rewrite <- H1, <- H2. }
    unfold noMatch. now rewrite X. }
  now rewrite E.
Qed.
