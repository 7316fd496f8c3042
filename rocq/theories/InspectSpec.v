(** Specification vocabulary for the resolver. *)
From Coq Require Import ZArith String List Bool Permutation.
From Verif Require Import Base Ast IntervalsModel InspectModel.
Import ListNotations.
Open Scope Z_scope.

(** Orders Go may choose: each is a rearrangement. *)
Definition valid_orders (o : orders) : Prop :=
  (forall l, Permutation (ord_structs o l) l) /\
  (forall l, Permutation (ord_contexts o l) l) /\
  (forall l, Permutation (ord_constants o l) l).

(** No name is declared twice in the file. *)
Definition self_ok (f : file) : Prop :=
  NoDup (map sname (fstructs f)) /\
  NoDup (map cname (fcontexts f)) /\
  NoDup (map kname (fconstants f)).

(** [g] may follow [f] on the command line. *)
Definition may_follow (f g : file) : Prop :=
  (forall s t, In s (fstructs f) -> In t (fstructs g) -> sname s = sname t -> Extern s = true) /\
  (forall c d, In c (fcontexts f) -> In d (fcontexts g) -> cname c <> cname d) /\
  (forall c d, In c (fconstants f) -> In d (fconstants g) -> kname c = kname d -> kvalue c = kvalue d).

(** No struct name is both declared extern and defined. *)
Definition no_mix (fs : list file) : Prop :=
  forall f g s t, In f fs -> In g fs -> In s (fstructs f) -> In t (fstructs g) ->
    sname s = sname t -> Extern s = Extern t.

(** Two resolvers answer alike, extern declarations aside. *)
Definition agree (r r' : resolver) : Prop :=
  (forall n s, Extern s = false -> (Struct r n = Some s <-> Struct r' n = Some s)) /\
  (forall n, Context r n = Context r' n) /\
  (forall n, Constant r n = Constant r' n).

(** Two resolvers answer alike. *)
Definition same_answers (r r' : resolver) : Prop :=
  (forall n, Struct r n = Struct r' n) /\
  (forall n, Context r n = Context r' n) /\
  (forall n, Constant r n = Constant r' n).

(** Calls a client can make. *)
Inductive call : Type :=
| CallAddStruct (s : struct)
| CallAddContext (c : context)
| CallAddConstant (c : constant)
| CallSetConstant (n : string) (v : Z)
| CallAddFile (o : orders) (f : file).

Definition do_call (r : resolver) (c : call) : mres :=
  match c with
  | CallAddStruct s => AddStruct r s
  | CallAddContext c => AddContext r c
  | CallAddConstant c => AddConstant r c
  | CallSetConstant n v => SetConstant r n v
  | CallAddFile o f => AddFile o r f
  end.

(** State after a history of calls; errors are ignored, as a client may. *)
Fixpoint history (r : resolver) (cs : list call) : resolver :=
  match cs with
  | [] => r
  | c :: cs' => history (fst (do_call r c)) cs'
  end.

(** Meaning of an integer list, given the values of constants. *)
Definition int_value (cv : string -> option Z) (i : integer) : option Z :=
  match i with IConst n => cv n | ILit v => Some v end.

(** Low and high bound of a range. *)
Definition range_bounds (cv : string -> option Z) (g : irange) : option (Z * Z) :=
  match int_value cv (rlow g) with
  | None => None
  | Some l =>
      match rhigh g with
      | None => Some (l, l)
      | Some h => match int_value cv h with Some h' => Some (l, h') | None => None end
      end
  end.

(** [x] is one of the listed integers. *)
Definition in_list (cv : string -> option Z) (l : intlist) (x : Z) : Prop :=
  exists g a b, In g l /\ range_bounds cv g = Some (a, b) /\ a <= x <= b.

(** All constants are defined, bounds are what the parser can produce
    (non-negative, below 2^63) and in order. *)
Definition good_range (cv : string -> option Z) (g : irange) : Prop :=
  exists a b, range_bounds cv g = Some (a, b) /\ 0 <= a /\ a <= b /\ b < two63.
Definition good_list (cv : string -> option Z) (l : intlist) : Prop := Forall (good_range cv) l.

(** Two ranges of the list share an integer. *)
Definition list_overlaps (cv : string -> option Z) (l : intlist) : Prop :=
  exists l1 g l2 h l3 a b c d x, l = l1 ++ g :: l2 ++ h :: l3 /\
    range_bounds cv g = Some (a, b) /\ range_bounds cv h = Some (c, d) /\
    a <= x <= b /\ c <= x <= d.

(** Which case of a union is taken for tag value [x]: the first listed case
    containing [x], and a default only if no list contains it. *)
Definition case_matches (cv : string -> option Z) (c : ucase) (x : Z) : Prop :=
  exists l, ucase_list c = Some l /\ in_list cv l x.
Definition takes (cv : string -> option Z) (cs : list ucase) (x : Z) (c : ucase) : Prop :=
  (exists pre post, cs = pre ++ c :: post /\ case_matches cv c x /\
      Forall (fun p => ~ case_matches cv p x) pre) \/
  (Forall (fun p => ~ case_matches cv p x) cs /\ In c cs /\ ucase_list c = None).

Definition one_default (cs : list ucase) : Prop :=
  forall l1 c l2 d l3, cs = l1 ++ c :: l2 ++ d :: l3 -> ucase_list c = None -> ucase_list d = None -> False.

(** Every case has a usable, non-empty list of integers or is a default. *)
Definition good_case (cv : string -> option Z) (c : ucase) : Prop :=
  match ucase_list c with None => True | Some l => l <> [] /\ good_list cv l end.
