(** How deeply the braces of a source are nested, and sources without braces in
    their comments. *)
From Coq Require Import ZArith String Ascii List Bool.
From Verif Require Import PegModel.
Import ListNotations.
Open Scope string_scope.
Open Scope list_scope.
Open Scope Z_scope.

Definition count (c : ascii) (w : text) : Z := Z.of_nat (length (filter (Ascii.eqb c) w)).
(** At no place of the text are more than [d] braces open. *)
Definition depth (d : Z) (data : text) : Prop :=
  forall a b, data = a ++ b -> count "{" a - count "}" a <= d.

Definition has (w x : text) : Prop := exists u z, x = u ++ w ++ z.
Definition braceless (w : text) : Prop := forall c, In c w -> byte c <> 123 /\ byte c <> 125.
(** trunnel.pigeon:466-480. *)
Inductive commentText : text -> Prop :=
| line_comment : forall v, ~ In (ascii_of_nat 10) v -> commentText (textOf "//" ++ v)
| block_comment : forall v, ~ has (textOf "*/") v -> commentText (textOf "/*" ++ v ++ textOf "*/").
(** No piece of the text that could be a comment contains a brace. *)
Definition plain (x : text) : Prop := forall w, has w x -> commentText w -> braceless w.
