(** Keeping what is ignored, for property C108. *)
From Coq Require Import ZArith String List.
From Verif Require Import Base Ast.
Import ListNotations.
Open Scope string_scope.
Open Scope list_scope.
Open Scope Z_scope.

(** The member [m'] is [m] with an array [u8 nm[];] instead of one of the [ignore;] in it.  Unions
    may be nested to any depth. *)
Inductive keeps (nm : string) : member -> member -> Prop :=
| K_here : keeps nm MIgnore (MField nm (TVar (TInt 8 None) None))
| K_case : forall u tag len cs1 l ms1 m m' ms2 cs2, keeps nm m m' ->
    keeps nm (MUnion u tag len (cs1 ++ UCase l (ms1 ++ m :: ms2) :: cs2)) (MUnion u tag len (cs1 ++ UCase l (ms1 ++ m' :: ms2) :: cs2)).
