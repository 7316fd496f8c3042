(** A bound for the number of expressions that are evaluated, in terms of the
    length of the source and the nesting of its braces. *)
From Coq Require Import ZArith String Ascii List Bool Lia ZifyBool ZifyNat.
From Verif Require Import Base Ast PegModel PegGrammar PegReport PegSpend NestSpec PegBalance PegUpper.
Import ListNotations.
Open Scope string_scope.
Open Scope list_scope.
Open Scope Z_scope.

Definition facts := (nat * bal)%type.
Definition factsOf (e : expr) : facts := (shortest e, braceBalance e).
Definition eatsBoth (i : facts) (x x' : text) : Prop := takesAtLeast (fst i) x x' /\ takes (snd i) x x'.
Lemma facts_sound : forall n rule e f s v f' s', exprR g n rule e f s = Ok (true, v, f', s') ->
  eatsBoth (factsOf e) (rest (base s)) (rest (base s')).
Proof. intros n rule e f s v f' s' H. split; [eapply shortest_sound; exact H|eapply braceBalance_sound; exact H]. Qed.

(** [c * L ^ k + h * L ^ j * M ^ (t + 1 - a)], with [L] one more than the length of
    the text and [t] its depth. *)
Record poly : Type := mkPoly { pc : Z; pk : nat; ph : Z; pj : nat; pa : Z }.
Definition nestCost := option poly.
Definition nestNone : nestCost := Some (mkPoly 0 0 0 0 0).
Definition nestOne : nestCost := Some (mkPoly 1 0 0 0 0).
Definition nestAdd (a b : nestCost) : nestCost :=
  match a, b with
  | Some p, Some q0 =>
      let q := mkPoly (Z.max 0 (pc q0)) (pk q0) (Z.max 0 (ph q0)) (pj q0) (pa q0) in
      Some (mkPoly (pc p + pc q) (Nat.max (pk p) (pk q)) (ph p + ph q)
             (if ph p =? 0 then pj q else if ph q =? 0 then pj p else Nat.max (pj p) (pj q))
             (if ph p =? 0 then pa q else if ph q =? 0 then pa p else Z.min (pa p) (pa q)))
  | _, _ => None
  end.
Definition nestAfter (i : facts) (a : nestCost) : nestCost :=
  match a with
  | Some p => if ph p =? 0 then Some p else
              match snd i with Some b => Some (mkPoly (pc p) (pk p) (ph p) (pj p) (pa p + b)) | None => None end
  | None => None
  end.
Definition nestAgain (i : facts) (a : nestCost) : nestCost :=
  match a with
  | Some p =>
      if (fst i =? 0)%nat then None
      else if ph p =? 0 then Some (mkPoly (pc p) (S (pk p)) 0 0 0)
      else match snd i with
           | Some b => if 0 <=? b then Some (mkPoly (pc p) (S (pk p)) (ph p) (S (pj p)) (pa p)) else None
           | None => None
           end
  | None => None
  end.
Definition nestFine (_ : facts) (_ : nestCost) : bool := true.

Section Nest.
  Variable N : nat.
  Variable M : Z.
  Hypothesis HM : 1 <= M.
  Definition lx (x : text) : Z := Z.of_nat (length x) + 1.
  Definition phi (t : Z) : Z := M ^ (t + 1).
  Definition value (p : poly) (x : text) : Z :=
    pc p * lx x ^ Z.of_nat (pk p) + ph p * lx x ^ Z.of_nat (pj p) * phi (top x - pa p).
  Definition nestWorth (a : nestCost) (x : text) (d : Z) : Prop :=
    match a with
    | None => True
    | Some p => 0 <= pc p /\ 0 <= ph p /\ (plain x -> (length x <= N)%nat -> d <= value p x)
    end.
  Lemma lx_pos : forall x, 1 <= lx x. Proof. intros x. unfold lx. lia. Qed.
  Lemma lx_pow : forall x k, 1 <= lx x ^ Z.of_nat k.
  Proof. intros x k. pose proof (lx_pos x). rewrite <- (Z.pow_1_l (Z.of_nat k)) by lia. apply Z.pow_le_mono_l. lia. Qed.
  Lemma lx_more : forall x j k, (j <= k)%nat -> lx x ^ Z.of_nat j <= lx x ^ Z.of_nat k.
  Proof. intros x j k L. pose proof (lx_pos x). apply Z.pow_le_mono_r; lia. Qed.
  Lemma lx_less : forall x x' k, (length x' <= length x)%nat -> lx x' ^ Z.of_nat k <= lx x ^ Z.of_nat k.
  Proof. intros x x' k L. apply Z.pow_le_mono_l. unfold lx. lia. Qed.
  Lemma phi_pos : forall t, 0 <= phi t. Proof. intros t. apply Z.pow_nonneg. lia. Qed.
  Lemma phi_more : forall s t, s <= t -> phi s <= phi t. Proof. intros s t L. apply Z.pow_le_mono_r; lia. Qed.
  (** One more round. *)
  Lemma round : forall x x' k, (length x' + 1 <= length x)%nat -> lx x ^ Z.of_nat k + lx x' ^ Z.of_nat (S k) <= lx x ^ Z.of_nat (S k).
  Proof.
    intros x x' k L. replace (Z.of_nat (S k)) with (Z.of_nat k + 1) by lia. rewrite !Z.pow_add_r, !Z.pow_1_r by lia.
    pose proof (lx_less x x' k ltac:(lia)) as A. pose proof (lx_pow x k). pose proof (lx_pow x' k).
    assert (B : lx x' + 1 <= lx x) by (unfold lx; lia). pose proof (lx_pos x').
    set (u := lx x ^ Z.of_nat k) in *. set (w := lx x' ^ Z.of_nat k) in *. clearbody u w. nia.
  Qed.

  Lemma worth_none' : forall x, nestWorth nestNone x 0.
  Proof. intros x. cbn. unfold value; cbn [pc pk ph pj pa]. lia. Qed.
  Lemma worth_one' : forall x, nestWorth nestOne x 1.
  Proof. intros x. cbn. unfold value; cbn [pc pk ph pj pa]. pose proof (lx_pow x 0). lia. Qed.
  Lemma value_pos : forall p x, 0 <= pc p -> 0 <= ph p -> 0 <= value p x.
  Proof.
    intros p x A B. unfold value. pose proof (lx_pow x (pk p)). pose proof (lx_pow x (pj p)). pose proof (phi_pos (top x - pa p)).
    apply Z.add_nonneg_nonneg; [nia|]. apply Z.mul_nonneg_nonneg; [nia|lia].
  Qed.
  Lemma add_value : forall p q r x, 0 <= pc p -> 0 <= ph p -> 0 <= pc q -> 0 <= ph q -> nestAdd (Some p) (Some q) = Some r ->
    0 <= pc r /\ 0 <= ph r /\ value p x + value q x <= value r x.
  Proof.
    intros p q r x P1 P2 Q1 Q2 E. unfold nestAdd in E. replace (mkPoly (Z.max 0 (pc q)) (pk q) (Z.max 0 (ph q)) (pj q) (pa q)) with q in E
      by (destruct q; cbn [pc pk ph pj pa] in *; f_equal; lia). cbv zeta in E. injection E as <-. cbn [pc ph pk pj pa]. split; [lia|]. split; [lia|]. unfold value. cbn [pc ph pk pj pa].
    pose proof (lx_more x (pk p) (Nat.max (pk p) (pk q)) ltac:(lia)). pose proof (lx_more x (pk q) (Nat.max (pk p) (pk q)) ltac:(lia)).
    assert (C : pc p * lx x ^ Z.of_nat (pk p) + pc q * lx x ^ Z.of_nat (pk q) <= (pc p + pc q) * lx x ^ Z.of_nat (Nat.max (pk p) (pk q))) by nia.
    enough (D : ph p * lx x ^ Z.of_nat (pj p) * phi (top x - pa p) + ph q * lx x ^ Z.of_nat (pj q) * phi (top x - pa q) <=
      (ph p + ph q) * lx x ^ Z.of_nat (if ph p =? 0 then pj q else if ph q =? 0 then pj p else Nat.max (pj p) (pj q)) *
      phi (top x - (if ph p =? 0 then pa q else if ph q =? 0 then pa p else Z.min (pa p) (pa q)))).
    { match type of D with ?a + ?b <= ?c => generalize dependent a; generalize dependent b; generalize dependent c end. clear - C. intros. lia. }
    clear - HM P2 Q2. destruct (ph p =? 0) eqn:E1; [replace (ph p) with 0 by lia; lia|]. destruct (ph q =? 0) eqn:E2; [replace (ph q) with 0 by lia; rewrite !Z.add_0_r; lia|].
    set (k := Nat.max (pj p) (pj q)). set (a := Z.min (pa p) (pa q)).
    assert (UP : forall j b, (j <= k)%nat -> a <= b -> lx x ^ Z.of_nat j * phi (top x - b) <= lx x ^ Z.of_nat k * phi (top x - a)).
    { clear - HM. intros j b J B. pose proof (lx_pow x j) as H1. pose proof (lx_more x j k J) as H2. pose proof (phi_pos (top x - b)) as H3.
      assert (H4 : phi (top x - b) <= phi (top x - a)) by (apply phi_more; clear - B; lia). clearbody k a.
      apply Z.mul_le_mono_nonneg; [clear - H1; lia|exact H2|exact H3|exact H4]. }
    assert (A1 := UP (pj p) (pa p) (Nat.le_max_l _ _) (Z.le_min_l _ _)). assert (A2 := UP (pj q) (pa q) (Nat.le_max_r _ _) (Z.le_min_r _ _)). clear UP.
    rewrite <- !Z.mul_assoc, Z.mul_add_distr_r. apply Z.add_le_mono; apply Z.mul_le_mono_nonneg_l; auto.
  Qed.
  Lemma worth_add' : forall a b x c d, nestWorth a x c -> nestWorth b x d -> nestWorth (nestAdd a b) x (c + d).
  Proof.
    intros [p|] [q|] x c d A B; try exact I. destruct A as (A1 & A2 & A), B as (B1 & B2 & B).
    destruct (nestAdd (Some p) (Some q)) as [r|] eqn:E; [|exact I]. destruct (add_value p q r x A1 A2 B1 B2 E) as (R1 & R2 & R).
    split; [exact R1|]. split; [exact R2|]. intros P L. specialize (A P L). specialize (B P L). lia.
  Qed.
  Lemma worth_left' : forall a b x c, nestWorth a x c -> nestWorth (nestAdd a b) x c.
  Proof.
    intros [p|] [q|] x c A; try exact I. destruct A as (A1 & A2 & A).
    set (q' := mkPoly (Z.max 0 (pc q)) (pk q) (Z.max 0 (ph q)) (pj q) (pa q)).
    assert (E : nestAdd (Some p) (Some q) = nestAdd (Some p) (Some q')).
    { unfold nestAdd, q'. cbn [pc pk ph pj pa]. rewrite !(Z.max_r 0 (Z.max 0 _)) by lia. reflexivity. }
    rewrite E. destruct (nestAdd (Some p) (Some q')) as [r|] eqn:E'; [|exact I].
    assert (Q1 : 0 <= pc q') by (cbn; lia). assert (Q2 : 0 <= ph q') by (cbn; lia).
    destruct (add_value p q' r x A1 A2 Q1 Q2 E') as (R1 & R2 & R). split; [exact R1|]. split; [exact R2|]. intros P L.
    specialize (A P L). pose proof (value_pos q' x Q1 Q2). lia.
  Qed.
  Lemma worth_after' : forall i a x x' c, eatsBoth i x x' -> nestWorth a x' c -> nestWorth (nestAfter i a) x c.
  Proof.
    intros i [p|] x x' c [T [[w ->] B]] W; [|exact I]. destruct W as (W1 & W2 & W). unfold nestAfter.
    assert (LL : (length x' <= length (w ++ x'))%nat) by (rewrite app_length; lia).
    assert (P1 : pc p * lx x' ^ Z.of_nat (pk p) <= pc p * lx (w ++ x') ^ Z.of_nat (pk p))
      by (apply Z.mul_le_mono_nonneg_l; [exact W1|apply lx_less; exact LL]).
    destruct (ph p =? 0) eqn:E.
    - split; [exact W1|]. split; [exact W2|]. intros P L. specialize (W (plain_suffix _ _ P) ltac:(lia)). unfold value in *.
      replace (ph p) with 0 in * by lia. lia.
    - destruct (snd i) as [b|]; [|exact I]. cbn [nestWorth pc ph]. split; [exact W1|]. split; [exact W2|]. intros P L.
      specialize (W (plain_suffix _ _ P) ltac:(lia)). specialize (B P). unfold value in *. cbn [pc pk ph pj pa].
      assert (P2 : ph p * lx x' ^ Z.of_nat (pj p) * phi (top x' - pa p) <= ph p * lx (w ++ x') ^ Z.of_nat (pj p) * phi (top (w ++ x') - (pa p + b))); [|lia].
      pose proof (lx_less (w ++ x') x' (pj p) LL). pose proof (lx_pow x' (pj p)).
      apply Z.mul_le_mono_nonneg; [nia|apply Z.mul_le_mono_nonneg_l; lia|apply phi_pos|apply phi_more; lia].
  Qed.
  Lemma worth_once' : forall i a x c, nestFine i a = true -> nestWorth a x c -> nestWorth (nestAgain i a) x c.
  Proof.
    intros i [p|] x c _ W; [|exact I]. destruct W as (W1 & W2 & W). unfold nestAgain. destruct (fst i =? 0)%nat; [exact I|].
    assert (P1 : pc p * lx x ^ Z.of_nat (pk p) <= pc p * lx x ^ Z.of_nat (S (pk p)))
      by (apply Z.mul_le_mono_nonneg_l; [exact W1|apply lx_more; lia]).
    destruct (ph p =? 0) eqn:E.
    - cbn [nestWorth pc ph]. split; [exact W1|]. split; [lia|]. intros P L. specialize (W P L). unfold value in *. cbn [pc pk ph pj pa].
      replace (ph p) with 0 in * by lia. lia.
    - destruct (snd i) as [b|]; [|exact I]. destruct (0 <=? b) eqn:B; [|exact I]. cbn [nestWorth pc ph]. split; [exact W1|]. split; [exact W2|]. intros P L.
      specialize (W P L). unfold value in *. cbn [pc pk ph pj pa].
      assert (P2 : ph p * lx x ^ Z.of_nat (pj p) * phi (top x - pa p) <= ph p * lx x ^ Z.of_nat (S (pj p)) * phi (top x - pa p)); [|lia].
      apply Z.mul_le_mono_nonneg_r; [apply phi_pos|]. apply Z.mul_le_mono_nonneg_l; [exact W2|apply lx_more; lia].
  Qed.
  Lemma worth_again' : forall i a x x' c d, nestFine i a = true -> nestWorth a x c -> eatsBoth i x x' -> nestWorth (nestAgain i a) x' d ->
    nestWorth (nestAgain i a) x (c + d).
  Proof.
    intros i [p|] x x' c d _ W [T [[w ->] B]] V; [|exact I]. destruct W as (W1 & W2 & W). unfold nestAgain in *. unfold takesAtLeast in T.
    destruct (fst i =? 0)%nat eqn:F; [exact I|].
    assert (LL : (length x' + 1 <= length (w ++ x'))%nat) by lia. set (x := w ++ x') in *.
    pose proof (round x x' (pk p) LL) as R1. pose proof (round x x' (pj p) LL) as R2.
    assert (P1 : pc p * lx x ^ Z.of_nat (pk p) + pc p * lx x' ^ Z.of_nat (S (pk p)) <= pc p * lx x ^ Z.of_nat (S (pk p)))
      by (rewrite <- Z.mul_add_distr_l; apply Z.mul_le_mono_nonneg_l; [exact W1|exact R1]).
    destruct (ph p =? 0) eqn:E.
    - destruct V as (_ & _ & V). cbn [nestWorth pc ph]. split; [exact W1|]. split; [lia|]. intros P L. specialize (W P L).
      specialize (V (plain_suffix _ _ P) ltac:(clear - LL L; lia)). unfold value in *. cbn [pc pk ph pj pa] in *. clear R1 R2.
      apply Z.eqb_eq in E. rewrite E in *. rewrite !Z.mul_0_l in *. clear - W V P1. lia.
    - destruct (snd i) as [b|]; [|exact I]. destruct (0 <=? b) eqn:B0; [|exact I]. destruct V as (_ & _ & V). cbn [nestWorth pc ph].
      split; [exact W1|]. split; [exact W2|]. intros P L. specialize (W P L). specialize (V (plain_suffix _ _ P) ltac:(clear - LL L; lia)). specialize (B P).
      unfold value in *. cbn [pc pk ph pj pa] in *. pose proof (phi_more (top x' - pa p) (top x - pa p) ltac:(clear - B B0; lia)) as PM.
      pose proof (phi_pos (top x' - pa p)) as PP. set (u := phi (top x - pa p)) in *. set (u' := phi (top x' - pa p)) in *.
      assert (P2 : ph p * lx x' ^ Z.of_nat (S (pj p)) * u' <= ph p * lx x' ^ Z.of_nat (S (pj p)) * u).
      { apply Z.mul_le_mono_nonneg_l; [|exact PM]. pose proof (lx_pow x' (S (pj p))) as H1. apply Z.mul_nonneg_nonneg; [exact W2|]. clear - H1. lia. }
      assert (P3 : ph p * (lx x ^ Z.of_nat (pj p) + lx x' ^ Z.of_nat (S (pj p))) * u <= ph p * lx x ^ Z.of_nat (S (pj p)) * u).
      { apply Z.mul_le_mono_nonneg_r; [clear - PM PP; lia|]. apply Z.mul_le_mono_nonneg_l; [exact W2|exact R2]. }
      rewrite Z.mul_add_distr_l, Z.mul_add_distr_r in P3. clear - W V P1 P2 P3. lia.
  Qed.
End Nest.

Definition nestOf (t : amap nestCost) (name : string) : nestCost := match alookup name t with Some k => k | None => nestNone end.
Definition nestOfE (t : string -> nestCost) (e : expr) : nestCost :=
  cost facts factsOf nestCost nestNone nestOne nestAdd nestAfter nestAgain t e.
Definition nestStep (t : amap nestCost) : amap nestCost :=
  map (fun x => (fst x, if String.eqb (fst x) "StructDecl" then Some (mkPoly 0 0 1 0 0) else nestOfE (nestOf t) (snd x))) g.
Definition nestTable : amap nestCost := Eval vm_compute in Nat.iter 20 nestStep [].
Definition atZero (p : poly) : bool := (0 <=? pc p) && (0 <=? ph p).
(** Every rule but that of struct declarations has the cost of its body. *)
Definition polyLe (p q : poly) : bool :=
  (pc p <=? pc q) && (pk p <=? pk q)%nat && (ph p <=? ph q) && (pj p <=? pj q)%nat && (pa q <=? pa p).
Definition nestLe (a b : nestCost) : bool :=
  match a, b with Some p, Some q => polyLe p q | _, None => true | None, Some _ => false end.
Definition declCost : poly := Eval vm_compute in match nestOfE (nestOf nestTable) rStructDecl with Some p => p | None => mkPoly 0 0 0 0 0 end.
Lemma declCost_is : nestOfE (nestOf nestTable) rStructDecl = Some declCost. Proof. vm_compute. reflexivity. Qed.
Definition nestLooping (e : expr) : bool :=
  looping facts factsOf nestCost nestNone nestOne nestAdd nestAfter nestAgain nestFine (nestOf nestTable) e.
Lemma nestTable_ok : forallb (fun x => nestLooping (snd x) &&
  (String.eqb (fst x) "StructDecl" || nestLe (nestOfE (nestOf nestTable) (snd x)) (nestOf nestTable (fst x)))) g = true.
Proof. vm_compute. reflexivity. Qed.
Lemma structDecl_is : nestOf nestTable "StructDecl" = Some (mkPoly 0 0 1 0 0). Proof. vm_compute. reflexivity. Qed.

Lemma nestLe_sound : forall N M a b x d, 1 <= M -> nestLe a b = true -> nestWorth N M a x d -> nestWorth N M b x d.
Proof.
  intros N M [p|] [q|] x d HM L W; try exact I; [|discriminate]. destruct W as (W1 & W2 & W). cbn [nestLe] in L. unfold polyLe in L.
  apply andb_prop in L as [L L5]. apply andb_prop in L as [L L4]. apply andb_prop in L as [L L3]. apply andb_prop in L as [L1 L2].
  split; [lia|]. split; [lia|]. intros P LN. specialize (W P LN). apply Z.le_trans with (1 := W). unfold value.
  pose proof (lx_pow x (pk p)) as A1. pose proof (lx_more x (pk p) (pk q) ltac:(lia)) as A2. pose proof (lx_pow x (pj p)) as A3.
  pose proof (lx_more x (pj p) (pj q) ltac:(lia)) as A4. pose proof (phi_pos M HM (top x - pa p)) as A5.
  pose proof (phi_more M HM (top x - pa p) (top x - pa q) ltac:(lia)) as A6.
  apply Z.add_le_mono; [apply Z.mul_le_mono_nonneg; lia|].
  apply Z.mul_le_mono_nonneg; [apply Z.mul_nonneg_nonneg; lia|apply Z.mul_le_mono_nonneg; lia|exact A5|exact A6].
Qed.

(** The bound for a struct declaration per level of braces. *)
Definition levelBound (n : nat) : Z := 3978 * (Z.of_nat n + 1) ^ 6.
Lemma level_pos : forall n, 1 <= levelBound n.
Proof.
  intros n. unfold levelBound. assert (H : 1 ^ 6 <= (Z.of_nat n + 1) ^ 6) by (apply Z.pow_le_mono_l; lia). rewrite Z.pow_1_l in H by lia. lia.
Qed.
Lemma decl_level : forall N x d, nestWorth N (levelBound N) (Some declCost) x d -> nestWorth N (levelBound N) (Some (mkPoly 0 0 1 0 0)) x d.
Proof.
  intros N x d (_ & _ & W). split; [cbn; lia|]. split; [cbn; lia|]. intros P L. specialize (W P L). apply Z.le_trans with (1 := W).
  unfold value. cbn [pc pk ph pj pa]. unfold declCost. cbn [pc pk ph pj pa].
  change (Z.of_nat 6) with 6. change (Z.of_nat 3) with 3. change (Z.of_nat 0) with 0. rewrite Z.pow_0_r, Z.mul_0_l, Z.add_0_l, !Z.mul_1_l, Z.sub_0_r.
  unfold phi. replace (top x - 1 + 1) with (top x) by lia. pose proof (top_pos x) as T. rewrite Z.pow_add_r, Z.pow_1_r by lia.
  pose proof (level_pos N) as LP. assert (MP : 1 <= levelBound N ^ top x).
  { rewrite <- (Z.pow_1_l (top x)) by exact T. apply Z.pow_le_mono_l. lia. }
  set (m := levelBound N ^ top x) in *. unfold levelBound. unfold lx.
  assert (A : (Z.of_nat (length x) + 1) ^ 6 <= (Z.of_nat N + 1) ^ 6) by (apply Z.pow_le_mono_l; lia).
  assert (B : (Z.of_nat (length x) + 1) ^ 3 <= (Z.of_nat (length x) + 1) ^ 6) by (apply Z.pow_le_mono_r; lia).
  assert (C : 0 <= (Z.of_nat (length x) + 1) ^ 3) by (apply Z.pow_nonneg; lia).
  set (u := (Z.of_nat (length x) + 1) ^ 6) in *. set (w := (Z.of_nat (length x) + 1) ^ 3) in *. set (r := (Z.of_nat N + 1) ^ 6) in *.
  clearbody m u w r. clear - MP A B C. nia.
Qed.

Lemma nested_cost : forall N n rule e f s ok v f' s', nestLooping e = true -> exprR g n rule e f s = Ok (ok, v, f', s') ->
  nestWorth N (levelBound N) (nestOfE (nestOf nestTable) e) (rest (base s)) (spent s s').
Proof.
  intros N n rule e f s ok v f' s' L E. pose proof (level_pos N) as HM.
  refine (spends g facts factsOf eatsBoth nestCost (nestWorth N (levelBound N)) nestNone nestOne nestAdd nestAfter nestAgain nestFine (nestOf nestTable)
    facts_sound _ _ _ _ _ _ _ _ n rule e f s ok v f' s' L E).
  - apply worth_none'.
  - apply worth_one'; exact HM.
  - apply worth_add'; exact HM.
  - apply worth_left'; exact HM.
  - apply worth_after'; exact HM.
  - apply worth_once'; exact HM.
  - apply worth_again'; exact HM.
  - intros name body A. assert (J := alookup_in _ _ _ _ A). pose proof nestTable_ok as K. rewrite forallb_forall in K. specialize (K _ J).
    apply andb_prop in K as [K1 K2]. cbn [fst snd] in K1, K2. split; [exact K1|]. intros x c W.
    destruct (String.eqb name "StructDecl") eqn:EN.
    + apply String.eqb_eq in EN as ->. injection A as <-. rewrite structDecl_is. apply decl_level. rewrite <- declCost_is. exact W.
    + apply (nestLe_sound N _ _ _ x c HM K2). exact W.
Qed.

Lemma depth_top : forall d x, depth d x -> top x <= d.
Proof.
  intros d x D. destruct (top_some x) as (a & b & E & T). specialize (D a b E). rewrite <- T.
  assert (X : excess a = count "{" a - count "}" a); [|lia]. clear. induction a as [|c a IH]; [reflexivity|].
  cbn [excess]. rewrite IH. unfold count. cbn [filter]. unfold val.
  destruct (Ascii.eqb_spec "{" c) as [<-|N1]; [cbn [length]; change (Ascii.eqb "}" "{") with false; change (byte "{") with 123; cbn iota; cbn [Z.eqb Pos.eqb]; lia|].
  destruct (Ascii.eqb_spec "}" c) as [<-|N2]; [cbn [length]; change (byte "}") with 125; cbn [Z.eqb Pos.eqb]; lia|].
  destruct (byte c =? 123) eqn:E1; [exfalso; apply N1|destruct (byte c =? 125) eqn:E2; [exfalso; apply N2|lia]].
  - rewrite <- (ascii_N_embedding c). unfold byte in E1. replace (N_of_ascii c) with 123%N by lia. reflexivity.
  - rewrite <- (ascii_N_embedding c). unfold byte in E2. replace (N_of_ascii c) with 125%N by lia. reflexivity.
Qed.

Lemma nested_bound : forall data d n ok v f s, plain data -> depth d data ->
  exprR g n "" (ERule "File") [] (startR data) = Ok (ok, v, f, s) -> spent (startR data) s <= levelBound (length data) ^ (d + 2).
Proof.
  intros data d n ok v f s P D E.
  pose proof (nested_cost (length data) n "" (ERule "File") [] (startR data) ok v f s eq_refl E) as W.
  assert (R : rest (base (startR data)) = data) by (rewrite PegReportProofs.base_start; destruct (invalid _); reflexivity).
  rewrite R in W. change (nestOfE (nestOf nestTable) (ERule "File")) with (Some (mkPoly 1098 4 1 1 0)) in W.
  destruct W as (_ & _ & W). specialize (W P (le_n _)). apply Z.le_trans with (1 := W). unfold value. cbn [pc pk ph pj pa].
  pose proof (depth_top _ _ D) as T. pose proof (top_pos data) as T0. pose proof (level_pos (length data)) as LP. unfold phi.
  change (Z.of_nat 4) with 4. change (Z.of_nat 1) with 1. rewrite Z.pow_1_r, Z.mul_1_l, Z.sub_0_r.
  assert (M1 : levelBound (length data) ^ (top data + 1) <= levelBound (length data) ^ (d + 1)) by (apply Z.pow_le_mono_r; lia).
  assert (M2 : 1 <= levelBound (length data) ^ (d + 1)).
  { assert (O : 1 ^ (d + 1) <= levelBound (length data) ^ (d + 1)) by (apply Z.pow_le_mono_l; lia). rewrite Z.pow_1_l in O by lia. exact O. }
  replace (d + 2) with (1 + (d + 1)) by lia. rewrite (Z.pow_add_r _ 1) by lia. rewrite Z.pow_1_r.
  set (m := levelBound (length data) ^ (d + 1)) in *. set (m0 := levelBound (length data) ^ (top data + 1)) in *. clearbody m m0.
  unfold levelBound, lx. pose proof (Nat2Z.is_nonneg (length data)) as ZN. set (l := Z.of_nat (length data) + 1) in *.
  assert (L1 : 1 <= l) by (unfold l; lia). clearbody l.
  assert (A : l ^ 4 <= l ^ 6) by (apply Z.pow_le_mono_r; lia).
  assert (B : l <= l ^ 6) by (rewrite <- (Z.pow_1_r l) at 1; apply Z.pow_le_mono_r; lia).
  set (u := l ^ 6) in *. set (w := l ^ 4) in *. clearbody u w. clear - A B L1 M1 M2. nia.
Qed.
