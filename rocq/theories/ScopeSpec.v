(** Where variables are declared in a function of the Go fragment. *)
From Coq Require Import ZArith String List Bool.
From Verif Require Import Base GoLang.
Import ListNotations.
Open Scope string_scope.
Open Scope list_scope.
Open Scope Z_scope.

(** The variable a statement declares in the block it stands in. *)
Definition declares (s : stmt) : list string :=
  match s with SDecl x _ | SVar x _ | SParseDecl x _ _ _ => [x] | _ => [] end.
(** All variables declared in a statement, at any depth. *)
Fixpoint declaredIn (s : stmt) : list string :=
  match s with
  | SDecl x _ | SVar x _ | SParseDecl x _ _ _ => [x]
  | SIf _ b | SBlock b | SWhile _ b => flat_map declaredIn b
  | SForLt x _ b => x :: flat_map declaredIn b
  | SSwitch cs => flat_map (fun c => flat_map declaredIn (snd c)) cs
  | SAssign _ _ | SAssign2 _ _ _ _ | SReturn _ _ | SParse _ _ _ _ _ => []
  end.
(** No block declares a name twice. *)
Inductive tidy : stmt -> Prop :=
| tidy_if c b : tidyBlock b -> tidy (SIf c b)
| tidy_block b : tidyBlock b -> tidy (SBlock b)
| tidy_while c b : tidyBlock b -> tidy (SWhile c b)
| tidy_for x n b : tidyBlock b -> tidy (SForLt x n b)
| tidy_switch cs : (forall c, In c cs -> tidyBlock (snd c)) -> tidy (SSwitch cs)
| tidy_decl x e : tidy (SDecl x e)
| tidy_var x t : tidy (SVar x t)
| tidy_assign l e : tidy (SAssign l e)
| tidy_assign2 l1 l2 a b : tidy (SAssign2 l1 l2 a b)
| tidy_return a b : tidy (SReturn a b)
| tidy_parse x e o a l : tidy (SParse x e o a l)
| tidy_parsedecl e o a l : tidy (SParseDecl e o a l)
with tidyBlock : list stmt -> Prop :=
| tidy_stmts ss : NoDup (flat_map declares ss) -> (forall s, In s ss -> tidy s) -> tidyBlock ss.
