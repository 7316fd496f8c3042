(** Which fields of its contexts a struct refers to, itself or through the structs inside of it. *)
From Coq Require Import ZArith String List Bool.
From Verif Require Import Base Ast GoLang WireSpec IndepSpec.
Import ListNotations.
Open Scope string_scope.
Open Scope list_scope.
Open Scope Z_scope.

(** The structs in a type. *)
Fixpoint structsIn (t : type) : list string :=
  match t with
  | TStruct nm => [nm]
  | TFixed b _ | TVar b _ => structsIn b
  | _ => []
  end.

(** [reads sv s x f]: the field [f] of the context [x] is a tag or a length in [s], or in a struct
    inside of [s] that is declared with the context [x]. *)
Inductive reads (sv : string -> option struct) : struct -> string -> string -> Prop :=
| Reads_here : forall s m f, In m (members_of s) -> In f (usesOf m) -> rscope f <> "" ->
    reads sv s (rscope f) (rname f)
| Reads_nested : forall s m nm t nm' s' x f, In m (members_of s) -> In (nm, t) (allFields m) -> In nm' (structsIn t) ->
    sv nm' = Some s' -> In x (scontexts s') -> reads sv s' x f -> reads sv s x f.

(** Two lists of contexts agree on what [s] refers to. *)
Definition agreeOn (camel : string -> string) (sv : string -> option struct) (s : struct) (args args' : list value) : Prop :=
  forall x ty cf ty' cf', In (x, VStruct ty cf) (combine (scontexts s) args) -> In (x, VStruct ty' cf') (combine (scontexts s) args') ->
    forall f, reads sv s x f -> alookup (camel f) cf = alookup (camel f) cf'.
