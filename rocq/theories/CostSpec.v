(** How much parsing may cost: a price for every declaration, computed from its
    text.  This file does not refer to the generated code. *)
From Coq Require Import ZArith String List Bool.
From Verif Require Import Base Ast IntervalsModel InspectModel InspectSpec WireSpec PackageSpec GoLang.
Import ListNotations.
Open Scope string_scope.
Open Scope list_scope.
Open Scope Z_scope.

Section Price.
Variable most : Z.   (* elements for which room is made at once: see [countsBelow] *)
Variable r : resolver.

Definition countOf (i : integer) : Z :=
  match int_value (Constant r) i with Some k => k | None => 0 end.
Definition sum {A} (f : A -> Z) (l : list A) : Z := fold_right (fun x t => f x + t) 0 l.

(** Cells that a field takes. *)
Fixpoint fieldCells (t : type) : Z :=
  match t with TFixed b i => countOf i * fieldCells b | _ => 1 end.

(** The number of ranges in a list. *)
Definition ranges (l : option intlist) : Z := match l with Some l => blen l | None => 0 end.

Section Members.
Variable K : string -> Z.   (* the prices of the structs *)

(** The price of a field: per byte it takes, and once more. *)
Fixpoint rateT (t : type) : Z :=
  match t with
  | TInt _ c => 30 + 15 * ranges c
  | TChar | TPtr | TNul => 30
  | TStruct nm => 30 + K nm
  | TFixed b i => 20 + countOf i * (20 + rateT b)
  | TVar b (Some (LRef _)) => 80 + 2 * rateT b + most
  | TVar b _ => 80 + 2 * rateT b
  end.

Fixpoint rateM (m : member) : Z :=
  match m with
  | MField _ t => 1 + rateT t
  | MUnion _ _ _ cs =>
      60 + sum (fun c => match c with UCase l ms => 15 * ranges l + sum rateM ms end) cs
  | MEOS | MFail | MIgnore => 10
  end.

Definition rateS (s : struct) : Z :=
  20 + sum (fun f => fieldCells (snd f)) (flat_map allFields (members_of s)) + blen (scontexts s) +
  sum rateM (members_of s).
End Members.

(** The price of a struct, looking [k] levels deep. *)
Fixpoint price (k : nat) (nm : string) : Z :=
  match k with
  | O => 0
  | S k' => match Struct r nm with Some s => rateS (price k') s | None => 0 end
  end.

(** The structs named in a type. *)
Fixpoint structsT (t : type) : list string :=
  match t with TStruct nm => [nm] | TFixed b _ | TVar b _ => structsT b | _ => [] end.
End Price.

(** No struct contains itself: nested structs have smaller ranks. *)
Definition nestedBelow (rank : string -> nat) (s : struct) : Prop :=
  forall f t nm, In (f, t) (flat_map allFields (members_of s)) -> In nm (structsT t) ->
    (rank nm < rank (sname s))%nat.
Definition acyclic (fs : list file) (rank : string -> nat) : Prop :=
  forall s, defines fs s -> nestedBelow rank s.

(** No array has its length in another field. *)
Definition noCounted (fs : list file) : Prop :=
  forall s f b x, defines fs s -> ~ In (f, TVar b (Some (LRef x))) (flat_map allFields (members_of s)).

(** No array has more than [most] elements by the width of the field or context
    field that holds its length. *)
Definition countsBelow (fs : list file) (r : resolver) (most : Z) : Prop :=
  forall s f b x, defines fs s -> In (f, TVar b (Some (LRef x))) (flat_map allFields (members_of s)) ->
    (rscope x = "" -> forall sz l, In (rname x, TInt sz l) (flat_map allFields (members_of s)) -> 2 ^ sz <= most) /\
    (rscope x <> "" -> forall c sz l, Context r (rscope x) = Some c -> In (rname x, TInt sz l) (cmembers c) -> 2 ^ sz <= most).

(** The same, where a constraint on the field may bound the length as well. *)
Definition countsWithin (fs : list file) (r : resolver) (most : Z) : Prop :=
  forall s f b x, defines fs s -> In (f, TVar b (Some (LRef x))) (flat_map allFields (members_of s)) ->
    (rscope x = "" -> forall sz l, In (rname x, TInt sz l) (flat_map allFields (members_of s)) ->
       2 ^ sz <= most \/ exists l', l = Some l' /\ forall z, in_list (Constant r) l' z -> z <= most) /\
    (rscope x <> "" -> forall c sz l, Context r (rscope x) = Some c -> In (rname x, TInt sz l) (cmembers c) -> 2 ^ sz <= most).
(** The integers of a struct are zero or allowed by their constraints: so they are
    in a fresh struct, and in what Parse makes of such a struct. *)
Definition settled (camel : string -> string) (r : resolver) (s : struct) (fs0 : amap value) : Prop :=
  forall nm sz l z, In (nm, TInt sz (Some l)) (flat_map allFields (members_of s)) -> alookup (camel nm) fs0 = Some (VInt z) ->
    z = 0 \/ in_list (Constant r) l z.

(** The elements of every array whose length is not a constant take at least a byte. *)
Definition elementsTake (fs : list file) (r : resolver) : Prop :=
  forall s f b l, defines fs s -> In (f, TVar b l) (flat_map allFields (members_of s)) -> eats (Constant r) (Struct r) b.

(** Prices that do for structs that contain themselves as well: what a call costs
    at most if it takes no byte ([entry], by rank), and for every byte. *)
Section Whole.
Variable most : Z.
Variable fs : list file.
Variable r : resolver.
Variable rank : string -> nat.
Definition ownStructs : list struct := filter (fun s => negb (Extern s)) (flat_map fstructs fs).
Definition together (a : Z) : Z := sum (rateS most r (fun _ => a)) ownStructs.
Fixpoint entry (k : nat) : Z := match k with O => 0 | S k' => entry k' + together (entry k') end.
Definition topRank : nat := list_max (map (fun s => rank (sname s)) ownStructs).
Definition perCall : Z := entry (S topRank).
Definition perByte : Z := (Z.of_nat topRank + 2) * together perCall + 3.
End Whole.
