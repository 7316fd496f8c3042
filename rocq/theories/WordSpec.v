(** Memory of a Go program on a 32-bit platform, as far as types say what it may
    hold, and declarations whose lengths fit such a platform. *)
From Coq Require Import ZArith String List Bool.
From Verif Require Import Base Ast InspectModel InspectSpec GoLang GoMem WireSpec GenSafe PackageSpec.
Import ListNotations.
Open Scope string_scope.
Open Scope list_scope.
Open Scope Z_scope.

Definition two31 : Z := 2147483648.

(** What an object is: a struct of a type of the package, an array with elements
    of a type, something else (of another package). *)
Inductive otype : Type :=
| OTstruct (n : string)
| OTarray (g : gtype)
| OTother.

(** byte is another name of uint8. *)
Definition elemType (g : gtype) : gtype := match g with GByte => GUint 8 | _ => g end.

Section Typed.
Variable types : amap (list (string * gtype)).
Variable S : list otype.

(** A value of the type [g]; [int] has 32 bits.  (Where a value is no number and
    leads nowhere, nothing more is asked of it.) *)
Inductive goVal : gtype -> hval -> Prop :=
| gv_uint b z : 0 <= z < 2 ^ b -> goVal (GUint b) (HInt z)
| gv_byte z : 0 <= z < 256 -> goVal GByte (HInt z)
| gv_int z : - two31 <= z < two31 -> goVal GInt (HInt z)
| gv_ptr p n : nth_error S p = Some (OTstruct n) -> goVal (GPtr n) (HPtr p)
| gv_slice g b o l c : nth_error S b = Some (OTarray (elemType g)) -> goVal (GSlice g) (HSlice b o l c)
| gv_array n g l : (forall v, In v l -> goVal g v) -> goVal (GArray n g) (HArr l)
| gv_nil g : goVal g HNil
| gv_str g s : goVal g (HStr s)
| gv_err g m : goVal g (HErr m)
| gv_bool g b : goVal g (HBool b).

Definition goObj (t : otype) (o : obj) : Prop :=
  match t with
  | OTstruct n => exists fs, o = OStruct n fs /\
      forall ds f g v, alookup n types = Some ds -> alookup f ds = Some g -> alookup f fs = Some v -> goVal g v
  | OTarray g => exists l, o = OArray l /\ forall v, In v l -> goVal g v
  | OTother => True
  end.
(** Every object is what [S] says. *)
Definition goHeap (H : heap) : Prop := Forall2 goObj S H.

(** [hv] is a slice of bytes, or nil. *)
Definition goInput (hv : hval) : Prop :=
  hv = HNil \/ exists b o l c, hv = HSlice b o l c /\ nth_error S b = Some (OTarray (GUint 8)) /\ Z.of_nat l < two31 /\ Z.of_nat c < two31.
End Typed.

(** Constants that are compared with an [int] are small: sizes of arrays and
    numbers of bytes left over. *)
Fixpoint countsT (t : type) : list integer :=
  match t with
  | TFixed b i => i :: countsT b
  | TVar b (Some (LLeftover i)) => i :: countsT b
  | TVar b _ => countsT b
  | _ => []
  end.
Fixpoint countsM (m : member) : list integer :=
  match m with
  | MField _ t => countsT t
  | MUnion _ _ len cs =>
      (match len with Some (LLeftover i) => [i] | _ => [] end) ++
      flat_map (fun c => match c with UCase _ ms => flat_map countsM ms end) cs
  | _ => []
  end.

(** Lengths come from fields of at most 16 bits. *)
Definition short (r : resolver) (s : struct) : Prop :=
  (forall f, In f (flat_map lengthRefs (members_of s)) ->
    (rscope f = "" -> forall sz cst, In (rname f, TInt sz cst) (flat_map allFields (members_of s)) -> sz <= 16) /\
    (rscope f <> "" -> forall c sz cst, Context r (rscope f) = Some c -> In (rname f, TInt sz cst) (cmembers c) -> sz <= 16)) /\
  (forall i z, In i (flat_map countsM (members_of s)) -> int_value (Constant r) i = Some z -> z < two31).
Definition shortFiles (fs : list file) (r : resolver) : Prop := forall s, defines fs s -> short r s.

(** The call x.Parse(data, args...) with x at [l], in memory that holds what the
    types of the package say. *)
Definition typedCall (camel : string -> string) (p : program) (s : struct) (H : heap) (l : loc) (hd : hval) (hargs : list hval) : Prop :=
  exists S, goHeap (ptypes p) S H /\ nth_error S l = Some (OTstruct (camel (sname s))) /\ goInput S hd /\
    Forall2 (fun x v => goVal S (GPtr (camel x)) v) (scontexts s) hargs.
(** The call ParseX(data, args...). *)
Definition typedNew (camel : string -> string) (p : program) (s : struct) (H : heap) (hd : hval) (hargs : list hval) : Prop :=
  exists S, goHeap (ptypes p) S H /\ goInput S hd /\ Forall2 (fun x v => goVal S (GPtr (camel x)) v) (scontexts s) hargs.
