(** Model of internal/intervals/intervals.go.  Definitions only. *)
From Coq Require Import ZArith String List Bool.
From Verif Require Import Base.
Import ListNotations.

Open Scope string_scope.
Open Scope list_scope.
Open Scope Z_scope.

(** intervals.go:14-18 [type Interval struct { lo, hi uint64 }]. *)
Record interval : Type := mkI { lo : Z; hi : Z }.

(** intervals.go:20-26 [Range]; panics when h < l. *)
Definition Range (l h : Z) : outcome interval :=
  if h <? l then Panic "bad range" else Ok (mkI l h).

(** intervals.go:28-31 [Single] (the constructor). *)
Definition Single (x : Z) : outcome interval := Range x x.

(** intervals.go:33-36 [Bits]: [Range(0, (1<<n)-1)] in uint64 arithmetic
    ([1<<n] is 0 when n >= 64). *)
Definition Bits (n : Z) : outcome interval := Range 0 (u64 (u64 (2 ^ n) - 1)).

(** intervals.go:38-41. *)
Definition OpenLeft (h : Z) : outcome interval := Range 0 h.

(** intervals.go:43-46. *)
Definition OpenRight (l : Z) : outcome interval := Range l max64.

(** intervals.go:48-51 [Size]: wraps to 0 for the full interval. *)
Definition Size (i : interval) : Z := u64 (u64 (hi i - lo i) + 1).

(** intervals.go:53-56 [Single] (the method). *)
Definition isSingle (i : interval) : bool := Size i =? 1.

(** intervals.go:58-61 [Interval.Contains]. *)
Definition iContains (i : interval) (x : Z) : bool := (lo i <=? x) && (x <=? hi i).

(** intervals.go:173-176 [type edge struct { x uint64; d int }]. *)
Record edge : Type := mkE { ex : Z; ed : Z }.

(** intervals.go:183-186 [edges.Less]. *)
Definition edgeLess (a b : edge) : bool :=
  (ex a <? ex b) || ((ex a =? ex b) && (ed b <? ed a)).

(** intervals.go:140-147 [intervaledges]. *)
Definition intervaledges (is : list interval) : list edge :=
  flat_map (fun i => [mkE (lo i) 1; mkE (hi i) (-1)]) is.

(** intervals.go:154 [sort.Sort(edges(es))].  [sort.Sort] is not specified to
    be a particular algorithm; insertion sort is used here, and
    [IntervalsProofs.sort_unique] shows that every sorted permutation of the
    input is this one. *)
Fixpoint insertEdge (e : edge) (l : list edge) : list edge :=
  match l with
  | [] => [e]
  | e' :: l' => if edgeLess e' e then e' :: insertEdge e l' else e :: l
  end.
Fixpoint sortEdges (l : list edge) : list edge :=
  match l with
  | [] => []
  | e :: l' => insertEdge e (sortEdges l')
  end.

(** intervals.go:155-170: the sweep of [thresholds].  [n], [inside] and
    [start] are the loop variables; the result list is built in order. *)
Fixpoint sweep (thresh : Z) (es : list edge) (n : Z) (inside : bool) (start : Z)
  : outcome (list interval) :=
  match es with
  | [] => Ok []
  | e :: es' =>
      let n' := n + ed e in
      if negb inside && (thresh <=? n') then sweep thresh es' n' true (ex e)
      else if inside && (n' <? thresh) then
        i <- Range start (ex e) ;;
        r <- sweep thresh es' n' false start ;;
        Ok (i :: r)
      else sweep thresh es' n' inside start
  end.

(** intervals.go:149-171 [thresholds]. *)
Definition thresholds (thresh : Z) (intervalsets : list (list interval))
  : outcome (list interval) :=
  sweep thresh (sortEdges (flat_map intervaledges intervalsets)) 0 false 0.

(** intervals.go:72-76 [Overlaps]. *)
Definition Overlaps (is : list interval) : outcome bool :=
  r <- thresholds 2 [is] ;; Ok (match r with [] => false | _ => true end).

(** intervals.go:78-82 [Simplify]. *)
Definition Simplify (is : list interval) : outcome (list interval) :=
  thresholds 1 [is].

(** intervals.go:84-87 [type Set]. *)
Record iset : Type := mkSet { intervals : list interval }.

(** intervals.go:89-93 [NewSet]. *)
Definition NewSet (is : list interval) : outcome iset :=
  r <- Simplify is ;; Ok (mkSet r).

(** intervals.go:95-98 [IntType]. *)
Definition IntTypeSet (n : Z) : outcome iset :=
  b <- Bits n ;; NewSet [b].

(** intervals.go:108-116 [Set.Contains]. *)
Definition Contains (s : iset) (x : Z) : bool :=
  existsb (fun i => iContains i x) (intervals s).

(** intervals.go:125-138 [complement]; [s] is the running lower bound. *)
Fixpoint complementFrom (s : Z) (is : list interval) : outcome (list interval) :=
  match is with
  | [] => if s =? 0 then Ok [] else i <- OpenRight s ;; Ok [i]
  | i :: is' =>
      let s' := u64 (hi i + 1) in
      if s <? lo i then
        c <- Range s (u64 (lo i - 1)) ;;
        r <- complementFrom s' is' ;;
        Ok (c :: r)
      else complementFrom s' is'
  end.
Definition complement (is : list interval) : outcome (list interval) :=
  complementFrom 0 is.

(** intervals.go:118-121 [Set.Subtract]; the receiver is updated in place, the
    model returns the new set. *)
Definition Subtract (s other : iset) : outcome iset :=
  c <- complement (intervals other) ;;
  r <- thresholds 2 [intervals s; c] ;;
  Ok (mkSet r).

(** The random source (github.com/mmcloughlin/random [Interface]) as used
    here: a stream of results of [Int63], each in [0,2^63), together with the
    position reached. *)
Record rng : Type := mkRng { draws : nat -> Z; rpos : nat }.
Definition Int63 (r : rng) : Z * rng :=
  (draws r (rpos r) mod two63, mkRng (draws r) (S (rpos r))).

(** intervals.go:238-240 [randuint64]; operands are evaluated left to right. *)
Definition randuint64 (r : rng) : Z * rng :=
  let '(a, r1) := Int63 r in
  let '(b, r2) := Int63 r1 in
  (Z.lor (Z.shiftr a 31) (u64 (Z.shiftl b 32)), r2).

(** intervals.go:224-227: the loop shrinking the mask.  The mask starts as
    2^64-1 and is halved, so 64 steps always suffice
    ([IntervalsProofs.shrink_enough]). *)
Fixpoint shrinkMask (k : nat) (mask n : Z) : Z :=
  match k with
  | O => mask
  | S k' => if n <? mask then shrinkMask k' (Z.shiftr mask 1) n else mask
  end.

(** intervals.go:228. *)
Definition randMask (n : Z) : Z :=
  Z.lor (u64 (Z.shiftl (shrinkMask 64 max64 n) 1)) 1.

(** intervals.go:230-235: the rejection loop; it has no bound in the source,
    [fuel] bounds the model. *)
Fixpoint rejectLoop (fuel : nat) (r : rng) (mask n : Z) : outcome (Z * rng) :=
  match fuel with
  | O => OutOfFuel
  | S fuel' =>
      let '(w, r') := randuint64 r in
      let v := Z.land w mask in
      if v <? n then Ok (v, r') else rejectLoop fuel' r' mask n
  end.

(** intervals.go:222-236 [randuint64n]. *)
Definition randuint64n (fuel : nat) (r : rng) (n : Z) : outcome (Z * rng) :=
  rejectLoop fuel r (randMask n) n.

(** intervals.go:204-212: the steps (upper, delta). *)
Fixpoint buildSteps (cuml : Z) (is : list interval) : list (Z * Z) * Z :=
  match is with
  | [] => ([], cuml)
  | i :: is' =>
      let c := u64 (cuml + Size i) in
      let '(st, total) := buildSteps c is' in
      ((c, u64 (u64 (hi i - c) + 1)) :: st, total)
  end.

(** intervals.go:214-219. *)
Fixpoint pickStep (r : Z) (steps : list (Z * Z)) : outcome Z :=
  match steps with
  | [] => Panic "unreachable"
  | (upper, delta) :: steps' =>
      if r <? upper then Ok (u64 (r + delta)) else pickStep r steps'
  end.

(** intervals.go:194-220 [RandomWithGenerator]. *)
Definition RandomWithGenerator (fuel : nat) (s : iset) (rnd : rng)
  : outcome (Z * rng) :=
  match intervals s with
  | [] => Panic "empty set"
  | is =>
      let '(steps, cuml) := buildSteps 0 is in
      '(r, rnd') <- randuint64n fuel rnd cuml ;;
      x <- pickStep r steps ;;
      Ok (x, rnd')
  end.
