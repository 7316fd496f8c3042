(** Property C92: the text of a set of integers says what is in it.

    [lists s x]: the text [s] lists the integer [x], read as numbers and ranges with commas between
    them (IntervalsTextSpec.v).  [wf_set]: the sets that the package makes (IntervalsSpec.v, C01-C03). *)
From Coq Require Import ZArith String Ascii List Bool Lia.
From Verif Require Import Base IntervalsModel IntervalsSpec IntervalsProofs IntervalsText IntervalsTextSpec IntervalsTextProofs.
Import ListNotations.
Open Scope string_scope.
Open Scope list_scope.
Open Scope Z_scope.

Theorem C92_text_lists : forall s, wf_set s -> forall x, lists (setString s) x <-> Contains s x = true.
Proof. intros s W x. symmetry. now apply set_text. Qed.
Print Assumptions C92_text_lists.

(** There is one reading only: the text determines the parts, and a part its bounds. *)
Theorem C92_one_reading : forall s ts ts', parts (list_ascii_of_string s) ts -> parts (list_ascii_of_string s) ts' ->
  ts = ts' /\ forall t a b a' b', In t ts -> spanOf t a b -> spanOf t a' b' -> a = a' /\ b = b'.
Proof. intros s ts ts' P P'. split; [eapply parts_fun; eauto|]. intros t a b a' b' _. apply span_fun. Qed.
Print Assumptions C92_one_reading.

(** Sets that print alike are equal. *)
Theorem C92_injective : forall s s', wf_set s -> wf_set s' -> setString s = setString s' -> s = s'.
Proof. exact set_text_inj. Qed.
Print Assumptions C92_injective.

(** The empty set, and only that, has an empty text. *)
Theorem C92_empty : forall s, wf_set s -> (setString s = "" <-> forall x, Contains s x = false).
Proof.
  intros s W. split.
  - intros E x. assert (S : s = mkSet []).
    { apply set_text_inj; auto; split; [constructor|exact I]. }
    now rewrite S.
  - intros N. destruct s as [[|i l]]; [reflexivity|]. exfalso. specialize (N (lo i)). destruct W as [V _]. inversion V as [|? ? (A & B & C) _]; subst.
    unfold Contains in N. cbn [intervals existsb] in N. apply orb_false_iff in N as [N _]. unfold iContains in N.
    rewrite (proj2 (Z.leb_le _ _) (Z.le_refl _)), (proj2 (Z.leb_le _ _) B) in N. discriminate N.
Qed.
Print Assumptions C92_empty.

(** Sets with the same elements may print differently, since touching intervals are kept apart (C47). *)
Theorem C92_canonical_refuted : exists s s', wf_set s /\ wf_set s' /\ NewSet (intervals s) = Ok s /\ NewSet (intervals s') = Ok s' /\
  (forall x, Contains s x = Contains s' x) /\ setString s <> setString s'.
Proof.
  exists (mkSet [mkI 1 2; mkI 3 3]), (mkSet [mkI 1 3]).
  assert (V : forall a b, 0 <= a -> a <= b -> b < 100 -> valid (mkI a b)) by (intros a b A B C; unfold valid, two64; cbn [lo hi]; lia).
  split; [|split; [|split; [vm_compute; reflexivity|split; [vm_compute; reflexivity|split]]]].
  - split; [repeat constructor; apply V; lia|]. unfold ordered. cbn. lia.
  - split; [repeat constructor; apply V; lia|]. unfold ordered. cbn. lia.
  - intros x. unfold Contains, iContains. cbn [intervals existsb lo hi].
    destruct (Z.leb_spec 1 x), (Z.leb_spec x 2), (Z.leb_spec 3 x), (Z.leb_spec x 3); cbn; lia || reflexivity.
  - vm_compute. discriminate.
Qed.
Print Assumptions C92_canonical_refuted.

(** [NewSet(Range(0, 7), Single(10), Range(300, 2^64-1))]. *)
Example C92_case : exists s, NewSet [mkI 0 7; mkI 10 10; mkI 300 max64] = Ok s /\ wf_set s /\
  setString s = "0-7,10,300-18446744073709551615" /\ lists "0-7,10,300-18446744073709551615" 10.
Proof.
  exists (mkSet [mkI 0 7; mkI 10 10; mkI 300 max64]).
  assert (W : wf_set (mkSet [mkI 0 7; mkI 10 10; mkI 300 max64])).
  { split; [repeat constructor; cbn; unfold max64; lia|]. unfold ordered, max64. cbn. lia. }
  assert (E : setString (mkSet [mkI 0 7; mkI 10 10; mkI 300 max64]) = "0-7,10,300-18446744073709551615") by (vm_compute; reflexivity).
  split; [vm_compute; reflexivity|]. split; [exact W|]. split; [exact E|].
  rewrite <- E. apply C92_text_lists; [exact W|reflexivity].
Qed.
