(** An upper bound for the number of expressions that are evaluated, in terms of
    the length of the source. *)
From Coq Require Import ZArith String Ascii List Bool Lia ZifyBool ZifyNat.
From Verif Require Import Base Ast PegModel PegGrammar PegReport PegSpend.
Import ListNotations.
Open Scope string_scope.
Open Scope list_scope.
Open Scope Z_scope.

(* ---------- lengths ---------- *)

Definition natOf (t : amap nat) (name : string) : nat := match alookup name t with Some k => k | None => 0%nat end.
Definition leastStep (t : amap nat) : amap nat := map (fun x => (fst x, least (natOf t) (snd x))) g.
Definition leastTable : amap nat := Eval vm_compute in Nat.iter 20 leastStep [].

Lemma leastTable_ok : forallb (fun x => (natOf leastTable (fst x) <=? least (natOf leastTable) (snd x))%nat) g = true.
Proof. vm_compute. reflexivity. Qed.
Lemma alookup_in : forall A (x : string) (m : amap A) a, alookup x m = Some a -> In (x, a) m.
Proof.
  induction m as [|[k v] m IH]; intros a H; [discriminate|]. cbn [alookup] in H. destruct (String.eqb x k) eqn:E.
  - apply String.eqb_eq in E as ->. injection H as <-. left. reflexivity.
  - right. auto.
Qed.
Lemma leastTable_sound : forall name e, alookup name g = Some e -> (natOf leastTable name <= least (natOf leastTable) e)%nat.
Proof.
  intros name e A. apply alookup_in in A. pose proof leastTable_ok as K. rewrite forallb_forall in K. specialize (K _ A).
  apply Nat.leb_le in K. exact K.
Qed.
Definition shortest (e : expr) : nat := least (natOf leastTable) e.
Lemma shortest_sound : forall n rule e f s v f' s', exprR g n rule e f s = Ok (true, v, f', s') ->
  takesAtLeast (shortest e) (rest (base s)) (rest (base s')).
Proof. exact (least_sound g _ leastTable_sound). Qed.

(* ---------- powers ---------- *)

Section Powers.
  (** [c] stands for [c * (p / q) ^ n] at a text of [n] bytes. *)
  Variable p q : Z.
  Hypothesis Q : 1 <= q.
  Hypothesis P : q < p.
  Definition pw (k : nat) : Z := p ^ Z.of_nat k.
  Definition qw (k : nat) : Z := q ^ Z.of_nat k.
  Definition powWorth (c : Z) (x : text) (d : Z) : Prop := 0 <= c /\ d * qw (length x) <= c * pw (length x).
  Definition powAfter (k : nat) (c : Z) : Z := (c * qw k + pw k - 1) / pw k.
  Definition powAgain (k : nat) (c : Z) : Z := (c * pw k + (pw k - qw k) - 1) / (pw k - qw k).
  Definition powFine (k : nat) (_ : Z) : bool := (0 <? k)%nat.

  Lemma pw_pos : forall k, 0 < pw k. Proof. intros k. apply Z.pow_pos_nonneg; lia. Qed.
  Lemma qw_pos : forall k, 0 < qw k. Proof. intros k. apply Z.pow_pos_nonneg; lia. Qed.
  Lemma qw_pw : forall k, qw k <= pw k. Proof. intros k. apply Z.pow_le_mono_l. lia. Qed.
  Lemma qw_pw1 : forall k, (0 < k)%nat -> qw k < pw k. Proof. intros k K. apply Z.pow_lt_mono_l; lia. Qed.
  Lemma pw_add : forall a b, pw (a + b) = pw a * pw b.
  Proof. intros. unfold pw. rewrite Nat2Z.inj_add, Z.pow_add_r by lia. reflexivity. Qed.
  Lemma qw_add : forall a b, qw (a + b) = qw a * qw b.
  Proof. intros. unfold qw. rewrite Nat2Z.inj_add, Z.pow_add_r by lia. reflexivity. Qed.
  Lemma ceil : forall a b, 0 < b -> a <= b * ((a + b - 1) / b).
  Proof. intros a b B. pose proof (Z.div_mod (a + b - 1) b ltac:(lia)). pose proof (Z.mod_pos_bound (a + b - 1) b B). lia. Qed.
  Lemma ceil_pos : forall a b, 0 < b -> 0 <= a -> 0 <= (a + b - 1) / b.
  Proof. intros. apply Z.div_pos; lia. Qed.

  (** What is worth [c] after [k] bytes. *)
  Lemma shifted : forall k c x x' d, takesAtLeast k x x' -> powWorth c x' d -> d * qw (length x) * pw k <= c * qw k * pw (length x).
  Proof.
    intros k c x x' d T [C W]. unfold takesAtLeast in T.
    replace (length x) with (length x' + (k + (length x - length x' - k)))%nat by lia.
    set (m := (length x - length x' - k)%nat). rewrite !qw_add, !pw_add.
    pose proof (qw_pos k). pose proof (pw_pos k). pose proof (qw_pos m). pose proof (pw_pos m). pose proof (qw_pw m).
    pose proof (pw_pos (length x')). pose proof (qw_pos (length x')).
    set (X := d * qw (length x')) in *. set (Y := c * pw (length x')) in *.
    assert (Y0 : 0 <= Y) by (unfold Y; nia).
    replace (d * (qw (length x') * (qw k * qw m)) * pw k) with (X * (qw k * qw m * pw k)) by (unfold X; ring).
    replace (c * qw k * (pw (length x') * (pw k * pw m))) with (Y * (qw k * pw m * pw k)) by (unfold Y; ring).
    clearbody X Y. assert (A : 0 < qw k * pw k) by nia. set (B := qw k * pw k) in *.
    replace (qw k * qw m * pw k) with (B * qw m) by (unfold B; ring). replace (qw k * pw m * pw k) with (B * pw m) by (unfold B; ring).
    clearbody B. apply Z.le_trans with (Y * (B * qw m)); [apply Z.mul_le_mono_nonneg_r; nia|].
    apply Z.mul_le_mono_nonneg_l; [exact Y0|]. apply Z.mul_le_mono_nonneg_l; lia.
  Qed.
  Lemma powWorth_none : forall x, powWorth 0 x 0. Proof. intros x. split; lia. Qed.
  Lemma powWorth_one : forall x, powWorth 1 x 1. Proof. intros x. split; [lia|]. rewrite !Z.mul_1_l. apply qw_pw. Qed.
  Lemma powWorth_add : forall a b x c d, powWorth a x c -> powWorth b x d -> powWorth (a + b) x (c + d).
  Proof. intros a b x c d [A0 A] [B0 B]. split; [lia|]. rewrite !Z.mul_add_distr_r. lia. Qed.
  Lemma powWorth_more : forall a b x c, a <= b -> powWorth a x c -> powWorth b x c.
  Proof. intros a b x c L [A0 A]. pose proof (pw_pos (length x)). split; nia. Qed.
  Lemma powWorth_after : forall k a x x' c, takesAtLeast k x x' -> powWorth a x' c -> powWorth (powAfter k a) x c.
  Proof.
    intros k a x x' c T W. pose proof (shifted _ _ _ _ _ T W) as S. destruct W as [A W]. unfold powAfter.
    pose proof (pw_pos k) as PK. pose proof (qw_pos k) as QK. pose proof (ceil (a * qw k) (pw k) PK) as CE.
    pose proof (ceil_pos (a * qw k) (pw k) PK ltac:(nia)) as CP. set (r := (a * qw k + pw k - 1) / pw k) in *. clearbody r.
    split; [exact CP|]. pose proof (pw_pos (length x)). set (U := c * qw (length x)) in *. set (V := pw (length x)) in *. clearbody U V.
    assert (B : a * qw k * V <= pw k * r * V) by nia. assert (D : pw k * U <= pw k * (r * V)) by lia. nia.
  Qed.
  Lemma powAgain_more : forall k a, powFine k a = true -> 0 <= a -> 0 <= powAgain k a /\ a * pw k <= powAgain k a * (pw k - qw k).
  Proof.
    intros k a F A. unfold powFine in F. apply Nat.ltb_lt in F. pose proof (qw_pw1 k F). pose proof (pw_pos k). unfold powAgain.
    pose proof (ceil (a * pw k) (pw k - qw k) ltac:(lia)). pose proof (ceil_pos (a * pw k) (pw k - qw k) ltac:(lia) ltac:(nia)). lia.
  Qed.
  Lemma powWorth_once : forall k a x c, powFine k a = true -> powWorth a x c -> powWorth (powAgain k a) x c.
  Proof.
    intros k a x c F W. pose proof (proj1 W) as A. destruct (powAgain_more k a F A) as [B D]. apply powWorth_more with (2 := W).
    pose proof (pw_pos k). pose proof (qw_pos k). nia.
  Qed.
  Lemma powWorth_again : forall k a x x' c d, powFine k a = true -> powWorth a x c -> takesAtLeast k x x' -> powWorth (powAgain k a) x' d ->
    powWorth (powAgain k a) x (c + d).
  Proof.
    intros k a x x' c d F [A W] T V. pose proof (shifted _ _ _ _ _ T V) as S. destruct (powAgain_more k a F A) as [B D]. split; [exact B|].
    pose proof (pw_pos k) as PK. pose proof (pw_pos (length x)) as PX. set (r := powAgain k a) in *. clearbody r.
    set (N := length x) in *. clearbody N. rewrite Z.mul_add_distr_r. set (U := c * qw N) in *. set (V' := d * qw N) in *. clearbody U V'.
    assert (E1 : U * pw k <= a * pw N * pw k) by nia. assert (E2 : a * pw k * pw N <= r * (pw k - qw k) * pw N) by nia.
    assert (E3 : (U + V') * pw k <= r * pw N * pw k) by nia. nia.
  Qed.
End Powers.

(* ---------- the grammar ---------- *)

Definition zadd (a b : Z) : Z := a + Z.max 0 b.
Definition zOf (t : amap Z) (name : string) : Z := match alookup name t with Some k => k | None => 0 end.
Definition powCost (t : string -> Z) (e : expr) : Z :=
  cost nat shortest Z 0 1 zadd (powAfter 4 3) (powAgain 4 3) t e.
Definition powStep (X : Z) (t : amap Z) : amap Z :=
  map (fun x => (fst x, if String.eqb (fst x) "StructDecl" then X else powCost (zOf t) (snd x))) g.
Definition powTable : amap Z := Eval vm_compute in Nat.iter 20 (powStep 600) [].
Definition powLooping (e : expr) : bool :=
  looping nat shortest Z 0 1 zadd (powAfter 4 3) (powAgain 4 3) powFine (zOf powTable) e.
Lemma powTable_ok : forallb (fun x => powLooping (snd x) && (powCost (zOf powTable) (snd x) <=? zOf powTable (fst x))) g = true.
Proof. vm_compute. reflexivity. Qed.

Lemma upper : forall n rule e f s ok v f' s', powLooping e = true -> exprR g n rule e f s = Ok (ok, v, f', s') ->
  powWorth 4 3 (powCost (zOf powTable) e) (rest (base s)) (spent s s').
Proof.
  intros n rule e f s ok v f' s' L E.
  refine (spends g nat shortest takesAtLeast Z (powWorth 4 3) 0 1 zadd (powAfter 4 3) (powAgain 4 3) powFine (zOf powTable)
    shortest_sound _ _ _ _ _ _ _ _ n rule e f s ok v f' s' L E).
  - apply powWorth_none.
  - apply powWorth_one; lia.
  - intros a b x c d W V. apply powWorth_add; [exact W|]. apply powWorth_more with (4 := V); lia.
  - intros a b x c. apply powWorth_more; try lia. unfold zadd. lia.
  - apply powWorth_after; lia.
  - apply powWorth_once; lia.
  - apply powWorth_again; lia.
  - intros name body A. apply alookup_in in A. pose proof powTable_ok as K. rewrite forallb_forall in K. specialize (K _ A).
    apply andb_prop in K as [K1 K2]. split; [exact K1|]. intros x c W. apply Z.leb_le in K2. cbn [fst snd] in K2.
    apply powWorth_more with (4 := W); [lia|lia|exact K2].
Qed.

(** The largest number of expressions at the start of a source, but for the power. *)
Definition upperBound : Z := Eval vm_compute in powCost (zOf powTable) (ERule "File").
Print upperBound.
