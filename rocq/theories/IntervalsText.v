(** Model of how internal/intervals/intervals.go prints intervals and sets.  Definitions only. *)
From Coq Require Import ZArith String Ascii List Bool.
From Verif Require Import Base IntervalsModel.
Import ListNotations.
Open Scope string_scope.
Open Scope list_scope.
Open Scope Z_scope.

(** [strconv.FormatUint(x, 10)], also [%d]: the remainders by ten, last one last.  A uint64 has at
    most 20 digits. *)
Definition digitOf (d : Z) : ascii := ascii_of_nat (Z.to_nat (48 + d)).
Fixpoint digitsOf (n : nat) (x : Z) : string :=
  match n with
  | O => ""
  | S n' => ((if (x <? 10)%Z then "" else digitsOf n' (x / 10)%Z) ++ String (digitOf (x mod 10)%Z) "")%string
  end.
Definition FormatUint (x : Z) : string := digitsOf 20 x.

(** intervals.go:63-70 [Interval.String]. *)
Definition iString (i : interval) : string :=
  if isSingle i then FormatUint (lo i) else (FormatUint (lo i) ++ "-" ++ FormatUint (hi i))%string.

(** [strings.Join(is, ",")]. *)
Fixpoint commas (l : list string) : string :=
  match l with
  | [] => ""
  | [x] => x
  | x :: l' => (x ++ "," ++ commas l')%string
  end.

(** intervals.go:100-106 [Set.String]. *)
Definition setString (s : iset) : string := commas (map iString (intervals s)).
