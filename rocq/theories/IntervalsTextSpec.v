(** How to read the text of a set: numbers and ranges, separated by commas. *)
From Coq Require Import ZArith String Ascii List.
Import ListNotations.
Open Scope list_scope.
Open Scope Z_scope.

(** Decimal numbers. *)
Definition digitIs (c : ascii) (d : Z) : Prop := 0 <= d <= 9 /\ Z.of_nat (nat_of_ascii c) = 48 + d.
Inductive number : list ascii -> Z -> Prop :=
| Nu_digit : forall c d, digitIs c d -> number [c] d
| Nu_more : forall l x c d, number l x -> digitIs c d -> number (l ++ [c]) (10 * x + d).

(** The parts between commas; the empty text has none. *)
Inductive parts : list ascii -> list (list ascii) -> Prop :=
| Pa_none : parts [] []
| Pa_last : forall t, t <> [] -> ~ In ","%char t -> parts t [t]
| Pa_more : forall t s ts, ~ In ","%char t -> s <> [] -> parts s ts -> parts (t ++ ","%char :: s) (t :: ts).

(** A part is a number, or two of them for all integers from one to the other. *)
Inductive spanOf : list ascii -> Z -> Z -> Prop :=
| Sp_one : forall l x, number l x -> spanOf l x x
| Sp_range : forall l x l' x', number l x -> number l' x' -> spanOf (l ++ "-"%char :: l') x x'.

(** The text lists the integer [x]. *)
Definition lists (s : string) (x : Z) : Prop :=
  exists ts t a b, parts (list_ascii_of_string s) ts /\ In t ts /\ spanOf t a b /\ a <= x <= b.
