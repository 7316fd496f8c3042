(** What a declaration needs to know of the rest of a package. *)
From Coq Require Import ZArith String List Bool.
From Verif Require Import Base Ast WireSpec ContextSpec.
Import ListNotations.
Open Scope string_scope.
Open Scope list_scope.
Open Scope Z_scope.

(** The declarations for which code is written. *)
Inductive decl : Type := DContext (c : context) | DStruct (s : struct).
Definition declsOf (f : file) : list decl := map DContext (fcontexts f) ++ map DStruct (fstructs f).

(** The constants that are mentioned. *)
Definition intConsts (i : integer) : list string := match i with IConst k => [k] | ILit _ => [] end.
Definition rangeConsts (g : irange) : list string := intConsts (rlow g) ++ match rhigh g with Some h => intConsts h | None => [] end.
Definition lengthConsts (l : option lconstraint) : list string := match l with Some (LLeftover i) => intConsts i | _ => [] end.
Fixpoint typeConsts (t : type) : list string :=
  match t with
  | TInt _ (Some l) => flat_map rangeConsts l
  | TFixed b i => typeConsts b ++ intConsts i
  | TVar b l => typeConsts b ++ lengthConsts l
  | _ => []
  end.
Fixpoint memberConsts (m : member) : list string :=
  match m with
  | MField _ t => typeConsts t
  | MUnion _ _ len cs => lengthConsts len ++
      flat_map (fun c => match c with UCase l ms => match l with Some l => flat_map rangeConsts l | None => [] end ++ flat_map memberConsts ms end) cs
  | _ => []
  end.
Definition constsOf (d : decl) : list string :=
  match d with
  | DContext c => flat_map (fun f => typeConsts (snd f)) (cmembers c)
  | DStruct s => flat_map memberConsts (members_of s)
  end.
(** The structs that are mentioned. *)
Definition structsOf (d : decl) : list string :=
  match d with
  | DContext _ => []
  | DStruct s => flat_map (fun f => structsIn (snd f)) (flat_map allFields (members_of s))
  end.

(** The constants that [d] mentions are the same in [fs] and [fs'], and the structs that it mentions
    are declared with the same contexts. *)
Definition sameNeeds (fs fs' : list file) (d : decl) : Prop :=
  (forall c c', In c (flat_map fconstants fs) -> In c' (flat_map fconstants fs') -> In (kname c) (constsOf d) -> kname c' = kname c -> kvalue c' = kvalue c) /\
  (forall s s', In s (flat_map fstructs fs) -> In s' (flat_map fstructs fs') -> In (sname s) (structsOf d) -> sname s' = sname s -> scontexts s' = scontexts s).
