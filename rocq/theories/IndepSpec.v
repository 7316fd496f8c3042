(** When a field is not used by the members that follow it. *)
From Coq Require Import ZArith String List Bool.
From Verif Require Import Base Ast GoLang.
Import ListNotations.
Open Scope string_scope.
Open Scope list_scope.
Open Scope Z_scope.

(** The references in a type: the lengths of arrays. *)
Fixpoint lengthsIn (t : type) : list idref :=
  match t with
  | TFixed b _ => lengthsIn b
  | TVar b (Some (LRef f)) => f :: lengthsIn b
  | TVar b _ => lengthsIn b
  | _ => []
  end.
(** The references in a member: lengths and tags, those in union cases included. *)
Fixpoint usesOf (m : member) : list idref :=
  match m with
  | MField _ t => lengthsIn t
  | MUnion _ tag len cs =>
    tag :: (match len with Some (LRef f) => [f] | _ => [] end) ++
    flat_map (fun c => match c with UCase _ ms => flat_map usesOf ms end) cs
  | MEOS | MFail | MIgnore => []
  end.
(** No member of [ms] has the field called [g] in Go as a length or tag. *)
Definition unused (camel : string -> string) (g : string) (ms : list member) : Prop :=
  forall m f, In m ms -> In f (usesOf m) -> rscope f = "" -> camel (rname f) <> g.
