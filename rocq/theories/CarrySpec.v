(** Members that refer to fields of their own struct where others refer to a context. *)
From Coq Require Import ZArith String List Bool.
From Verif Require Import Base Ast.
Import ListNotations.
Open Scope string_scope.
Open Scope list_scope.

(** [x.f] becomes [f]. *)
Definition ownRef (x : string) (f : idref) : idref := if String.eqb (rscope f) x then mkRef "" (rname f) else f.
Definition ownLen (x : string) (l : lconstraint) : lconstraint := match l with LRef f => LRef (ownRef x f) | LLeftover i => LLeftover i end.
Definition ownType (x : string) (t : type) : type := match t with TVar b (Some l) => TVar b (Some (ownLen x l)) | _ => t end.
Fixpoint ownMember (x : string) (m : member) : member :=
  match m with
  | MField n t => MField n (ownType x t)
  | MUnion u tag len cs =>
      MUnion u (ownRef x tag) (option_map (ownLen x) len) (map (fun c => match c with UCase l ms => UCase l (map (ownMember x) ms) end) cs)
  | MEOS => MEOS
  | MFail => MFail
  | MIgnore => MIgnore
  end.
