(** [parse.String] and [parse.Files] accept exactly the language of
    [SyntaxSpec]. *)
From Coq Require Import ZArith String Ascii List Bool Lia ZifyBool ZifyNat.
From Verif Require Import Base Ast PegModel PegGrammar PegEngine PegRunes PegDescent PegConsume PegRefine PegRules
  SyntaxSpec PegUtf8 PegTop PegLexical PegSound PegComplete.
Import ListNotations.
Open Scope string_scope.
Open Scope list_scope.
Open Scope Z_scope.

Lemma scalar_runes : forall data, Forall good (runes data) <-> exists cs, Forall scalar cs /\ data = utf8 cs.
Proof.
  intros data. split.
  - intros H. exists (runes data). apply good_utf8; auto.
  - intros (cs & H & ->). rewrite (runes_utf8 _ H). eapply Forall_impl; [|exact H]. apply scalar_good.
Qed.

Theorem returns_denotes : forall data f, returns data (Ok f) <-> denotes data f.
Proof.
  intros data f. split.
  - intros H. apply (returns_iff (S (length (runes data)))) in H; [|lia]. destruct H as (G & d & E & Z).
    apply good_utf8 in G. destruct G as [G T]. destruct (fileP_sound _ _ _ _ E Z) as (ds & inline & F & ->).
    exists (runes data), ds, inline. auto.
  - intros (cs & ds & inline & G & -> & F & ->). destruct (fileP_complete _ _ _ F) as [N K].
    apply (returns_iff (Nat.max N (S (length (runes (utf8 cs)))))); [lia|].
    split; [apply scalar_runes; eauto|]. rewrite (runes_utf8 _ G). eexists. split; [apply K; lia|reflexivity].
Qed.

Theorem denotes_fun : forall data f1 f2, denotes data f1 -> denotes data f2 -> f1 = f2.
Proof.
  intros data f1 f2 H1 H2. apply returns_denotes in H1, H2. pose proof (returns_fun _ _ _ H1 H2). congruence.
Qed.

Theorem returns_failed : forall data, returns data failed <-> (forall f, ~ denotes data f).
Proof.
  intros data. split.
  - intros H f D. apply returns_denotes in D. pose proof (returns_fun _ _ _ H D). discriminate.
  - intros H. destruct (returns_either data) as [[f R]|R]; auto. exfalso. apply returns_denotes in R. eapply H; eauto.
Qed.

(** ** Several files *)
Definition filesReturn (d : disk) (names : list string) (r : outcome (list file)) : Prop :=
  exists n, forall m, (n <= m)%nat -> parseFiles m d names = Some r.

Lemma filesReturn_fun : forall d names r1 r2, filesReturn d names r1 -> filesReturn d names r2 -> r1 = r2.
Proof.
  intros d names r1 r2 [n H1] [m H2]. specialize (H1 (Nat.max n m) ltac:(lia)).
  specialize (H2 (Nat.max n m) ltac:(lia)). congruence.
Qed.

Definition readAs (d : disk) (name : string) (f : file) : Prop :=
  exists data, d name = Some data /\ denotes data f.

Lemma files_either : forall d names,
  (exists fs, Forall2 (readAs d) names fs /\ filesReturn d names (Ok fs)) \/
  ((exists name, In name names /\ forall f, ~ readAs d name f) /\ exists e, filesReturn d names (Err e)).
Proof.
  intros d names. induction names as [|name names IH].
  - left. exists []. split; auto. exists O. reflexivity.
  - destruct (d name) as [data|] eqn:E.
    + destruct (returns_either data) as [[f R]|R].
      * destruct IH as [(fs & F & [n H])|((nm & I & Hn) & e & [n H])].
        -- left. exists (f :: fs). split.
           { constructor; auto. exists data. split; auto. apply returns_denotes; auto. }
           destruct R as [k R]. exists (Nat.max n k). intros m L. cbn. unfold parseFile. rewrite E, R, H by lia. reflexivity.
        -- right. split; [exists nm; split; [right|]; auto|]. exists e.
           destruct R as [k R]. exists (Nat.max n k). intros m L. cbn. unfold parseFile. rewrite E, R, H by lia. reflexivity.
      * right. split.
        -- exists name. split; [left; auto|]. intros f (dt & E1 & D). rewrite E in E1. inversion E1; subst.
           eapply (proj1 (returns_failed dt)); eauto.
        -- exists "parse error". destruct R as [k R]. exists k. intros m L. cbn. unfold parseFile. rewrite E, R by lia. reflexivity.
    + right. split.
      * exists name. split; [left; auto|]. intros f (dt & E1 & D). congruence.
      * exists "open". exists O. intros m _. cbn. unfold parseFile. rewrite E. reflexivity.
Qed.

Theorem files_ok : forall d names fs, filesReturn d names (Ok fs) <-> Forall2 (readAs d) names fs.
Proof.
  intros d names fs. destruct (files_either d names) as [(fs0 & F & R)|((nm & I & Hn) & e & R)].
  - split.
    + intros H. pose proof (filesReturn_fun _ _ _ _ R H) as E. inversion E; subst. exact F.
    + intros H. replace fs with fs0; auto. clear R. revert fs F H. induction names as [|x names IH] in fs0 |- *;
      intros fs F H; inversion F as [|? ? ? ? A1 A2]; inversion H as [|? ? ? ? B1 B2]; subst; auto. f_equal; eauto.
      destruct A1 as (dt & E1 & D1). destruct B1 as (dt2 & E2 & D2). rewrite E1 in E2. inversion E2; subst. eapply denotes_fun; eauto.
  - split.
    + intros H. pose proof (filesReturn_fun _ _ _ _ R H). discriminate.
    + intros H. exfalso. clear R. induction H; [destruct I|]. destruct I as [->|I]; eauto. eapply Hn; eauto.
Qed.
