(** One member instead of another in a union, for property C109. *)
From Coq Require Import String List.
From Verif Require Import Base Ast.
Import ListNotations.
Open Scope string_scope.
Open Scope list_scope.

(** The member [m'] is [m] with [h'] instead of one [h] in it.  Unions may be nested to any depth. *)
Inductive within (h h' : member) : member -> member -> Prop :=
| W_here : within h h' h h'
| W_case : forall u tag len cs1 l ms1 m m' ms2 cs2, within h h' m m' ->
    within h h' (MUnion u tag len (cs1 ++ UCase l (ms1 ++ m :: ms2) :: cs2)) (MUnion u tag len (cs1 ++ UCase l (ms1 ++ m' :: ms2) :: cs2)).
