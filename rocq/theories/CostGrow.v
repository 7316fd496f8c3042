(** Appending one element at a time costs at most sixteen units per element. *)
From Coq Require Import ZArith String List Bool Lia.
From Coq Require Import ZifyBool ZifyNat.
From Verif Require Import Base GoLang GoCost.
Import ListNotations.
Open Scope Z_scope.

Section Grow.
Variable mem : account.
Notation g := (grows mem).

Fixpoint totalN (k : nat) : Z := match k with O => 0 | S k' => totalN k' + moving mem (Z.of_nat k') end.
Definition total (k : Z) : Z := totalN (Z.to_nat k).

Lemma capacity_room : forall k, Z.of_nat k <= capacity g k.
Proof.
  induction k as [|k IH]; cbn [capacity]; [lia|]. destruct (Z.eqb_spec (capacity g k) (Z.of_nat k)) as [E|E]; [|lia].
  destruct (next_more g (capacity g k)) as [M _]; lia.
Qed.

Lemma moving_nonneg : forall k, 0 <= k -> 0 <= moving mem k.
Proof.
  intros k K. unfold moving. destruct (_ =? k); [|lia]. unfold alloc. destruct (next_more g k K) as [M _]. destruct (withMemory mem); lia.
Qed.
Lemma moving_le : forall k, 0 <= k -> moving mem k <= if capacity g (Z.to_nat k) =? k then k + next g k else 0.
Proof.
  intros k K. unfold moving. destruct (_ =? k); [|lia]. unfold alloc. destruct (next_more g k K) as [M _]. destruct (withMemory mem); lia.
Qed.

Lemma total_steps : forall k, (k = 0%nat /\ totalN k = 0) \/
  exists p, 0 <= p < Z.of_nat k /\ 6 * p <= 5 * capacity g k /\ capacity g k <= 3 * p + 16 /\ totalN k <= 12 * p + capacity g k.
Proof.
  induction k as [|k IH]; [left; auto|right]. cbn [totalN capacity].
  pose proof (moving_le (Z.of_nat k) ltac:(lia)) as MV. rewrite Nat2Z.id in MV. pose proof (capacity_room k) as CR.
  destruct (Z.eqb_spec (capacity g k) (Z.of_nat k)) as [E|E].
  - rewrite E. destruct (next_more g (Z.of_nat k) ltac:(lia)) as [M1 M2]. pose proof (next_room g (Z.of_nat k) ltac:(lia)) as M3.
    exists (Z.of_nat k). destruct IH as [[-> T]|(p & P & A & B & T)]; cbn [Z.of_nat] in *; lia.
  - destruct IH as [[-> T]|(p & P & A & B & T)]; [cbn in E; lia|]. exists p. lia.
Qed.

Lemma total_zero : total 0 = 0.
Proof. reflexivity. Qed.
Lemma total_succ : forall k, 0 <= k -> total (k + 1) = total k + moving mem k.
Proof. intros k K. unfold total. replace (Z.to_nat (k + 1)) with (S (Z.to_nat k)) by lia. cbn [totalN]. now rewrite Z2Nat.id. Qed.
(** The amortised cost of appending. *)
Lemma total_le : forall k, 0 <= k -> total k <= 16 * k.
Proof. intros k K. unfold total. destruct (total_steps (Z.to_nat k)) as [[E T]|(p & P & A & B & T)]; lia. Qed.

(** What the appends so far have left of their sixteen units each. *)
Definition saved (k : Z) : Z := 16 * k - total k.
Lemma saved_zero : saved 0 = 0.
Proof. reflexivity. Qed.
Lemma saved_nonneg : forall k, 0 <= k -> 0 <= saved k.
Proof. intros k K. pose proof (total_le k K). unfold saved. lia. Qed.
Lemma saved_succ : forall k, 0 <= k -> moving mem k = 16 + saved k - saved (k + 1).
Proof. intros k K. unfold saved. rewrite (total_succ k K). lia. Qed.
End Grow.

(** What Go does since version 1.18, apart from rounding up. *)
Definition goNext (c : Z) : Z := if c <? 1 then 1 else if c <? 256 then 2 * c else c + (c + 768) / 4.
Lemma goNext_more : forall c, 0 <= c -> c < goNext c /\ 6 * c <= 5 * goNext c.
Proof. intros c H. unfold goNext. destruct (c <? 1) eqn:A; [lia|]. destruct (c <? 256) eqn:B; [lia|]. pose proof (Z.div_mod (c + 768) 4 ltac:(lia)). pose proof (Z.mod_pos_bound (c + 768) 4 ltac:(lia)). lia. Qed.
Lemma goNext_room : forall c, 0 <= c -> goNext c <= 3 * c + 16.
Proof. intros c H. unfold goNext. destruct (c <? 1) eqn:A; [lia|]. destruct (c <? 256) eqn:B; [lia|]. pose proof (Z.div_mod (c + 768) 4 ltac:(lia)). pose proof (Z.mod_pos_bound (c + 768) 4 ltac:(lia)). lia. Qed.
Definition goGrowth : growth := mkGrowth goNext goNext_more goNext_room.
(** Before that, apart from rounding up. *)
Definition oldNext (c : Z) : Z := if c <? 1 then 1 else if c <? 1024 then 2 * c else c + c / 4.
Lemma oldNext_more : forall c, 0 <= c -> c < oldNext c /\ 6 * c <= 5 * oldNext c.
Proof. intros c H. unfold oldNext. destruct (c <? 1) eqn:A; [lia|]. destruct (c <? 1024) eqn:B; [lia|]. pose proof (Z.div_mod c 4 ltac:(lia)). pose proof (Z.mod_pos_bound c 4 ltac:(lia)). lia. Qed.
Lemma oldNext_room : forall c, 0 <= c -> oldNext c <= 3 * c + 16.
Proof. intros c H. unfold oldNext. destruct (c <? 1) eqn:A; [lia|]. destruct (c <? 1024) eqn:B; [lia|]. pose proof (Z.div_mod c 4 ltac:(lia)). pose proof (Z.mod_pos_bound c 4 ltac:(lia)). lia. Qed.
Definition oldGrowth : growth := mkGrowth oldNext oldNext_more oldNext_room.
