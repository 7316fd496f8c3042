(** How to read the name of a corpus file: two hexadecimal digits for each byte. *)
From Coq Require Import ZArith String Ascii List.
From Verif Require Import Base.
Import ListNotations.
Open Scope string_scope.
Open Scope list_scope.
Open Scope Z_scope.

(** Lower-case hexadecimal digits. *)
Definition hexDigits : list ascii := list_ascii_of_string "0123456789abcdef".
Definition hexIs (c : ascii) (d : Z) : Prop := 0 <= d /\ nth_error hexDigits (Z.to_nat d) = Some c.
Inductive hexes : string -> bytes -> Prop :=
| Hx_nil : hexes "" []
| Hx_byte : forall c d c' d' s b, hexIs c d -> hexIs c' d' -> hexes s b -> hexes (String c (String c' s)) (16 * d + d' :: b).
