(** Declarations whose structs have test vectors for all cases of their unions: a
    boolean check of the declarations, used in the statement of C59. *)
From Coq Require Import ZArith String List Bool.
From Verif Require Import Base Ast InspectModel GenModel GenCheck PackageSpec TvClass.
Import ListNotations.
Open Scope string_scope.
Open Scope list_scope.

(** * Members that always have vectors *)
Section Live.
(** Structs without unions and failing members; structs with vectors. *)
Variable pl al : string -> bool.
Fixpoint plainT (t : type) : bool :=
  match t with
  | TStruct n => pl n
  | TFixed b _ | TVar b _ => plainT b
  | _ => true
  end.
Definition plainM (m : member) : bool :=
  match m with
  | MField _ t => plainT t
  | MEOS | MIgnore => true
  | MUnion _ _ _ _ | MFail => false
  end.

(** The case [c] of a union has vectors: its tag is a field of the struct that
    nothing in [later] uses, and so is its length. *)
Definition unused (f : idref) (later : list string) : bool := String.eqb (rscope f) "" && negb (memb (rname f) later).
Definition liveCase (later : list string) (tag : idref) (len : option lconstraint) (c : ucase) : bool :=
  unused tag later && forallb plainM (ucase_members c) &&
  match len with
  | None => true
  | Some (LRef f) => unused f (later ++ rname tag :: refsMs (ucase_members c))
  | Some (LLeftover _) => false
  end.
Definition liveM (later : list string) (m : member) : bool :=
  match m with
  | MField _ (TStruct n) => al n
  | MUnion _ tag len cs => oneDefaultb cs && existsb (liveCase later tag len) cs
  | _ => plainM m
  end.
Fixpoint liveMs (ms : list member) : bool :=
  match ms with [] => true | m :: ms' => liveM (refsMs ms') m && liveMs ms' end.
End Live.

(** The labels [pl] (structs without unions and failing members) and [al]
    (structs whose members all have vectors) are right. *)
Definition liveFiles (pl al : string -> bool) (fs : list file) : bool :=
  forallb (fun s => implb (pl (sname s)) (forallb (plainM pl) (members_of s)) && implb (al (sname s)) (liveMs pl al (members_of s))) (definedStructs fs).
