(** How long the messages of a declaration can be, computed from its text.  This
    file does not refer to the generated code. *)
From Coq Require Import ZArith String List Bool.
From Verif Require Import Base Ast InspectModel InspectSpec WireSpec.
Import ListNotations.
Open Scope string_scope.
Open Scope list_scope.
Open Scope Z_scope.

(** A span of lengths: from the first number to the second, or without an upper end.
    [None] is the empty span: there is no message at all. *)
Definition span := option (Z * option Z).
Definition within (a : span) (n : Z) : Prop :=
  exists l h, a = Some (l, h) /\ l <= n /\ forall x, h = Some x -> n <= x.
Definition both (f : Z -> Z -> Z) (a b : option Z) : option Z :=
  match a, b with Some x, Some y => Some (f x y) | _, _ => None end.

Definition nothing : span := Some (0, Some 0).
Definition anything : span := Some (0, None).
Definition exactly (n : Z) : span := Some (n, Some n).
(** One after the other; one or the other; [k] times; so many times; of such a
    length.  How many times or how long is given by two ends as well. *)
Definition howMany : Type := Z * option Z.
Definition andThen (a b : span) : span :=
  match a, b with Some (l, h), Some (l', h') => Some (l + l', both Z.add h h') | _, _ => None end.
Definition orElse (a b : span) : span :=
  match a, b with
  | Some (l, h), Some (l', h') => Some (Z.min l l', both Z.max h h')
  | None, x | x, None => x
  end.
Definition times (k : Z) (a : span) : span :=
  if k <=? 0 then nothing
  else match a with Some (l, h) => Some (k * l, option_map (Z.mul k) h) | None => None end.
Definition between (e : howMany) (a : span) : span :=
  match a with
  | Some (l, h) => Some (fst e * Z.max 0 l, match h with Some y => if y <=? 0 then Some 0 else option_map (fun x => x * y) (snd e) | None => None end)
  | None => if fst e <=? 0 then nothing else None
  end.
Definition upper (a b : option Z) : option Z :=
  match a, b with Some x, Some y => Some (Z.min x y) | None, x | x, None => x end.
Definition cut (e : howMany) (a : span) : span :=
  match a with Some (l, h) => Some (Z.max (fst e) l, upper (snd e) h) | None => None end.

Section Sizes.
Variable r : resolver.

(** The least and the largest number in an integer field: those of its width and, where
    the parser has checked it, of its constraint. *)
Definition least (sz : Z) (l : intlist) : Z :=
  fold_right (fun g a => match range_bounds (Constant r) g with Some (x, _) => Z.min x a | None => a end) (2 ^ sz - 1) l.
Definition largest (l : intlist) : Z :=
  fold_right (fun g a => match range_bounds (Constant r) g with Some (_, y) => Z.max y a | None => a end) 0 l.
Definition endsOf (sz : Z) (cst : option intlist) : howMany :=
  match cst with
  | None => (0, Some (2 ^ sz - 1))
  | Some l => (Z.max 0 (least sz l), Some (Z.min (2 ^ sz - 1) (largest l)))
  end.
Definition fieldOf (flds : list (string * type)) (nm : string) : option type :=
  option_map snd (find (fun f => String.eqb (fst f) nm) flds).
(** The numbers that a reference gives.  Contexts are not checked by the parser. *)
Definition limit (s : struct) (f : idref) : howMany :=
  if String.eqb (rscope f) "" then
    match fieldOf (flat_map allFields (members_of s)) (rname f) with Some (TInt sz cst) => endsOf sz cst | _ => (0, None) end
  else match Context r (rscope f) with
       | Some c => match fieldOf (cmembers c) (rname f) with Some (TInt sz _) => endsOf sz None | _ => (0, None) end
       | None => (0, None)
       end.

Section Struct.
Variable K : string -> span.   (* the spans of nested structs *)
Variable s : struct.

Fixpoint spanT (t : type) : span :=
  match t with
  | TInt sz _ => exactly (sz / 8)
  | TChar => exactly 1
  | TNul => Some (1, None)
  | TPtr => nothing
  | TStruct nm => K nm
  | TFixed b i => match int_value (Constant r) i with Some k => times k (spanT b) | None => anything end
  | TVar b (Some (LRef f)) => between (limit s f) (spanT b)
  | TVar b _ => anything
  end.

Definition hasDefault (cs : list ucase) : bool :=
  existsb (fun c => match ucase_list c with None => true | Some _ => false end) cs.
(** A union is one of its cases; without a default it may also be empty (C18). *)
Fixpoint spanM (m : member) : span :=
  match m with
  | MField _ t => spanT t
  | MUnion _ _ len cs =>
      let body := fold_right (fun c a => orElse (match c with UCase _ ms => fold_right (fun m b => andThen (spanM m) b) nothing ms end) a)
                             (if hasDefault cs then None else nothing) cs in
      match len with Some (LRef f) => cut (limit s f) body | _ => body end
  | MEOS => nothing
  | MFail => None
  | MIgnore => anything
  end.
Definition spanMs (ms : list member) : span := fold_right (fun m b => andThen (spanM m) b) nothing ms.
End Struct.

(** The span of a struct, looking [k] levels deep into nested structs. *)
Fixpoint spanIn (k : nat) (nm : string) : span :=
  match k with
  | O => anything
  | S k' => match Struct r nm with Some s => spanMs (spanIn k') s (members_of s) | None => None end
  end.
Definition spanOf (k : nat) (s : struct) : span := spanMs (spanIn k) s (members_of s).

(** Declarations that zeros satisfy: no unions and markers, no arrays without a count,
    counts from fields of the same struct, constraints that allow zero; the same for
    the nested structs, which are at most [k] levels deep. *)
Fixpoint plainT (N : string -> Prop) (s : struct) (t : type) : Prop :=
  match t with
  | TInt _ cst => forall l, cst = Some l -> in_list (Constant r) l 0
  | TChar | TNul | TPtr => True
  | TStruct nm => N nm
  | TFixed b _ => plainT N s b
  | TVar _ (Some (LRef f)) => rscope f = "" /\ exists sz cst, fieldOf (flat_map allFields (members_of s)) (rname f) = Some (TInt sz cst) /\
      forall l, cst = Some l -> in_list (Constant r) l 0
  | TVar _ _ => False
  end.
Definition plainS (N : string -> Prop) (s : struct) : Prop :=
  forall m, In m (members_of s) -> exists nm t, m = MField nm t /\ plainT N s t.
Fixpoint plainIn (k : nat) (nm : string) : Prop :=
  match k with
  | O => False
  | S k' => match Struct r nm with Some s => plainS (plainIn k') s | None => False end
  end.
Definition plain (k : nat) (s : struct) : Prop := plainS (plainIn k) s.
End Sizes.
