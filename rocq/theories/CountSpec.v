(** How many test vectors declarations lead to, stated by counting.  Definitions only. *)
From Coq Require Import ZArith String List Bool Arith.
From Verif Require Import Base Ast InspectModel.
Import ListNotations.
Open Scope list_scope.
Open Scope nat_scope.

Section Count.
Variable r : resolver.
(** A number for every struct. *)
Variable k : string -> nat.

(** One vector for a field that is not a struct; a choice for every element of an array.  Arrays
    up to the end of the data have up to 20 elements. *)
Fixpoint countType (t : type) : nat :=
  match t with
  | TStruct n => k n
  | TFixed b i => match Integer r i with Ok n => countType b ^ Z.to_nat n | _ => 1 end
  | TVar b None => countType b ^ 20
  | _ => 1
  end.
(** Choices of different members multiply, cases of a union add up. *)
Fixpoint countMember (m : member) : nat :=
  match m with
  | MField _ t => countType t
  | MUnion _ _ _ cs =>
      list_sum (map (fun c => match c with UCase _ ms => fold_right (fun m x => countMember m * x) 1 ms end) cs)
  | MIgnore => 2
  | MFail => 0
  | MEOS => 1
  end.
Definition countMembers (ms : list member) : nat := fold_right (fun m x => countMember m * x) 1 ms.

(** The elements of an array with its length in a field leave no choice. *)
Fixpoint plainArrays (t : type) : bool :=
  match t with
  | TFixed b _ | TVar b None => plainArrays b
  | TVar b (Some _) => plainArrays b && (countType b <=? 1)
  | _ => true
  end.
Fixpoint plainMember (m : member) : bool :=
  match m with
  | MField _ t => plainArrays t
  | MUnion _ _ _ cs => forallb (fun c => match c with UCase _ ms => forallb plainMember ms end) cs
  | _ => true
  end.
End Count.

(** [k] is large enough for all structs. *)
Definition counts (r : resolver) (fs : list file) (k : string -> nat) : Prop :=
  forall s, Extern s = false -> (exists f, In f fs /\ In s (fstructs f)) ->
  countMembers r k (members_of s) <= k (sname s) /\ forallb (plainMember r k) (members_of s) = true.
