(** Properties C01-C05, C47 and C75: interval sets (internal/intervals). *)
From Coq Require Import ZArith String List Bool Lia.
From Verif Require Import Base IntervalsModel IntervalsSpec IntervalsProofs RandomProofs RandomUniform Minimal.
Import ListNotations.
Open Scope Z_scope.

(** C01. *)
Theorem C01_newset_exact : forall is, Forall valid is ->
  exists s, NewSet is = Ok s /\ (forall x, Contains s x = true <-> covers is x) /\ wf_set s.
Proof. exact newset_correct. Qed.
Print Assumptions C01_newset_exact.

Theorem C01_simplify_exact : forall is, Forall valid is ->
  exists R, Simplify is = Ok R /\ (forall x, covers R x <-> covers is x) /\
    Forall valid R /\ ordered R.
Proof. exact simplify_correct. Qed.
Print Assumptions C01_simplify_exact.

(** The order in which [sort.Sort] happens to leave equal elements does not
    matter: there is only one sorted arrangement. *)
Theorem C01_sort_irrelevant : forall l l', esorted l' -> Permutation.Permutation l' l ->
  l' = sortEdges l.
Proof. exact sort_unique. Qed.
Print Assumptions C01_sort_irrelevant.

Example C01_case : Forall valid [mkI 5 10; mkI 0 max64; mkI 7 7; mkI 10 12] /\
  NewSet [mkI 5 10; mkI 7 7; mkI 10 12; mkI 20 20] = Ok (mkSet [mkI 5 12; mkI 20 20]).
Proof. split; [repeat constructor; vm_compute; discriminate|reflexivity]. Qed.

(** C02. *)
Theorem C02_overlaps_exact : forall is, Forall valid is ->
  exists b, Overlaps is = Ok b /\ (b = true <-> exists x, covers_twice is x).
Proof. exact overlaps_correct. Qed.
Print Assumptions C02_overlaps_exact.

Example C02_case : Overlaps [mkI 1 10; mkI 20 30; mkI 10 11] = Ok true /\
  Overlaps [mkI 1 10; mkI 20 30; mkI 11 19] = Ok false.
Proof. split; reflexivity. Qed.

(** C03, for a non-empty subtrahend. *)
Theorem C03_subtract_exact_partial : forall s o, wf_set s -> wf_set o -> intervals o <> [] ->
  exists r, Subtract s o = Ok r /\ wf_set r /\
    (forall x, Contains r x = true <-> Contains s x = true /\ Contains o x = false).
Proof. exact subtract_correct. Qed.
Print Assumptions C03_subtract_exact_partial.

(** C03 in full is false: subtracting the empty set empties the set. *)
Theorem C03_subtract_refuted : exists s o x r, wf_set s /\ wf_set o /\
  Contains s x = true /\ Contains o x = false /\
  Subtract s o = Ok r /\ Contains r x = false.
Proof. exact subtract_witness. Qed.
Print Assumptions C03_subtract_refuted.

(** ... and not just for one set: every set. *)
Theorem C03_subtract_empty_empties : forall s, wf_set s ->
  Subtract s (mkSet []) = Ok (mkSet []).
Proof. exact subtract_empty. Qed.
Print Assumptions C03_subtract_empty_empties.

Example C03_case :
  Subtract (mkSet [mkI 0 255]) (mkSet [mkI 0 3; mkI 100 max64]) = Ok (mkSet [mkI 4 99]).
Proof. reflexivity. Qed.

(** The set of an integer type. *)
Theorem C03_inttype_exact : forall n, 0 <= n <= 64 ->
  exists s, IntTypeSet n = Ok s /\ wf_set s /\
    (forall x, Contains s x = true <-> 0 <= x < 2 ^ n).
Proof. exact inttype_correct. Qed.
Print Assumptions C03_inttype_exact.

(** C04: on a non-empty set that leaves out some 64-bit integer, every return
    is an element and there is no panic ... *)
Theorem C04_random_element : forall s, wf_set s -> intervals s <> [] ->
  forall y, is_u64 y -> Contains s y = false ->
  forall fuel rnd,
  RandomWithGenerator fuel s rnd = OutOfFuel \/
  exists x rnd', RandomWithGenerator fuel s rnd = Ok (x, rnd') /\ Contains s x = true.
Proof. exact random_sound. Qed.
Print Assumptions C04_random_element.

(** ... and every element comes out for some source. *)
Theorem C04_random_reaches_all : forall s, wf_set s -> intervals s <> [] ->
  forall y, is_u64 y -> Contains s y = false ->
  forall x, Contains s x = true ->
  exists rnd rnd', RandomWithGenerator 1 s rnd = Ok (x, rnd').
Proof. exact random_reach. Qed.
Print Assumptions C04_random_reaches_all.

Example C04_case : exists x r, RandomWithGenerator 3 (mkSet [mkI 10 19; mkI 100 104])
   (mkRng (fun n => 12 * 2147483648) 0) = Ok (x, r) /\ x = 102.
Proof. eexists; eexists; split; vm_compute; reflexivity. Qed.

(** C05, for sets that leave out some 64-bit integer: a source that produces
    every 64-bit word at some point makes the call return. *)
Theorem C05_random_terminates_partial : forall s, wf_set s -> intervals s <> [] ->
  forall y, is_u64 y -> Contains s y = false ->
  forall rnd, all_words rnd ->
  exists fuel x rnd', RandomWithGenerator fuel s rnd = Ok (x, rnd').
Proof. exact random_terminates. Qed.
Print Assumptions C05_random_terminates_partial.

(** On a set holding all 64-bit integers the call never returns, whatever the
    source does. *)
Theorem C05_full_set_hangs : forall s, wf_set s -> intervals s <> [] ->
  (forall y, is_u64 y -> Contains s y = true) ->
  forall fuel rnd, RandomWithGenerator fuel s rnd = OutOfFuel.
Proof. exact random_full_hangs. Qed.
Print Assumptions C05_full_set_hangs.

(** So C05 in full is false; the witness is the set of values of a u64. *)
Theorem C05_random_terminates_refuted : exists s, wf_set s /\ intervals s <> [] /\
  IntTypeSet 64 = Ok s /\ forall fuel rnd, RandomWithGenerator fuel s rnd = OutOfFuel.
Proof. exact random_u64_hangs. Qed.
Print Assumptions C05_random_terminates_refuted.

(** C47 is false: touching intervals are not joined. *)
Theorem C47_simplify_minimal_refuted : exists is R R',
  Forall valid is /\ Simplify is = Ok R /\
  (forall x, covers R' x <-> covers is x) /\ (List.length R' < List.length R)%nat.
Proof. exact simplify_not_minimal. Qed.
Print Assumptions C47_simplify_minimal_refuted.

(** What remains: the result is minimal if every two neighbouring values of the set
    lie together in some interval.  Missing from the full statement: intervals that
    merely touch. *)
Theorem C47_simplify_minimal_partial : forall is R, Forall valid is -> Simplify is = Ok R ->
  (forall x, covers is x -> covers is (x + 1) -> exists i, In i is /\ lo i <= x /\ x + 1 <= hi i) ->
  forall R', (forall x, covers R' x <-> covers is x) -> (List.length R <= List.length R')%nat.
Proof. exact simplify_minimal. Qed.
Print Assumptions C47_simplify_minimal_partial.

Example C47_case : Forall valid [mkI 4 6; mkI 1 2; mkI 6 9] /\ Simplify [mkI 4 6; mkI 1 2; mkI 6 9] = Ok [mkI 1 2; mkI 4 9] /\
  forall x, covers [mkI 4 6; mkI 1 2; mkI 6 9] x -> covers [mkI 4 6; mkI 1 2; mkI 6 9] (x + 1) ->
    exists i, In i [mkI 4 6; mkI 1 2; mkI 6 9] /\ lo i <= x /\ x + 1 <= hi i.
Proof.
  split; [repeat constructor; vm_compute; congruence|]. split; [reflexivity|].
  intros x (i & I & A) (j & J & B). cbn [In] in I, J.
  destruct I as [<-|[<-|[<-|[]]]], J as [<-|[<-|[<-|[]]]]; cbn [lo hi] in A, B; destruct (Z_le_dec x 5);
    first [exists (mkI 4 6); split; [cbn; auto|cbn [lo hi]; lia] | exists (mkI 1 2); split; [cbn; auto|cbn [lo hi]; lia]
          | exists (mkI 6 9); split; [cbn; auto|cbn [lo hi]; lia] | lia].
Qed.

(** C75: any two elements are equally likely.  [swapping sg]: [sg] permutes the
    pairs of results of [Int63]; [rearranged sg r r']: [r'] produces what [r]
    does, with every pair permuted; [drawn s fuel r x k]: the call returns [x]
    and has used the source up to position [k].  So the sources that give [x]
    and those that give [y] correspond one to one, draw by draw. *)
Theorem C75_uniform : forall s, wf_set s -> forall y0, is_u64 y0 -> Contains s y0 = false ->
  forall x y, Contains s x = true -> Contains s y = true ->
  exists sg, swapping sg /\ (forall r, exists r', rearranged sg r r') /\
  forall r r', rearranged sg r r' -> forall fuel k, drawn s fuel r x k <-> drawn s fuel r' y k.
Proof. exact uniform. Qed.
Print Assumptions C75_uniform.

(** And not many draws are wasted: in each round at least a quarter of all words
    make the call return. *)
Theorem C75_rounds : forall s, wf_set s -> forall y0, is_u64 y0 -> Contains s y0 = false -> intervals s <> [] ->
  exists m, 0 < m <= 64 /\ card (intervals s) < 2 ^ m <= 4 * card (intervals s) /\
  forall fuel r, (wordOf (pairAt r 0) mod 2 ^ m < card (intervals s) -> exists x, drawn s (S fuel) r x (rpos r + 2)) /\
    (card (intervals s) <= wordOf (pairAt r 0) mod 2 ^ m -> forall x k, drawn s (S fuel) r x k <-> drawn s fuel (mkRng (draws r) (rpos r + 2)) x k).
Proof. exact rounds. Qed.
Print Assumptions C75_rounds.

Example C75_case : let s := mkSet [mkI 10 19; mkI 100 104] in
  wf_set s /\ is_u64 0 /\ Contains s 0 = false /\ Contains s 13 = true /\ Contains s 102 = true /\ card (intervals s) = 15 /\
  drawn s 3 (mkRng (fun n => 3 * 2147483648) 0) 13 2 /\ drawn s 3 (mkRng (fun n => 12 * 2147483648) 0) 102 2 /\
  drawn s 3 (mkRng (fun n => (if Nat.ltb n 2 then 15 else 12) * 2147483648) 0) 102 4.
Proof.
  cbv zeta. split; [split; [repeat constructor; unfold valid, two64; cbn; lia|cbn; lia]|].
  split; [unfold is_u64, two64; lia|]. repeat (split; [vm_compute; reflexivity|]).
  split; [|split]; (eexists; split; [vm_compute; reflexivity|reflexivity]).
Qed.
