(** A class of declarations on which the test vector generator works: static
    conditions, as a boolean check.

    The generator goes wrong on declarations outside the class (TvWitness.v):
    arrays whose elements have several vectors, lengths and tags recorded before
    a nested struct, integer constraints that a chosen length or tag does not
    meet, union cases that overlap, lists with bounds beyond the width of the
    field. *)
From Coq Require Import ZArith String List Bool.
From Verif Require Import Base Ast IntervalsModel InspectModel InspectSpec GoLang GenModel GenCheck WireSpec.
Import ListNotations.
Open Scope string_scope.
Open Scope list_scope.
Open Scope Z_scope.

(** Names of local fields a reference, type, member uses. *)
Definition localRef (f : idref) : list string := if String.eqb (rscope f) "" then [rname f] else [].
Definition refsL (len : option lconstraint) : list string := match len with Some (LRef f) => localRef f | _ => [] end.
Definition refsT (t : type) : list string := match t with TVar _ len => refsL len | _ => [] end.
Definition refsF (m : member) : list string := match m with MField _ t => refsT t | _ => [] end.
Definition refsM (m : member) : list string :=
  match m with
  | MUnion _ tag len cs => localRef tag ++ refsL len ++ flat_map (fun c => flat_map refsF (ucase_members c)) cs
  | _ => refsF m
  end.
Definition refsMs (ms : list member) : list string := flat_map refsM ms.
Definition namesMs (ms : list member) : list string := flat_map fieldNames ms.

Definition isNil {A} (l : list A) : bool := match l with [] => true | _ => false end.
Definition isStruct (t : type) : bool := match t with TStruct _ => true | _ => false end.
Definition caseRanges (c : ucase) : intlist := match ucase_list c with Some l => l | None => [] end.

(** The fields that hold the lengths of unions and of arrays. *)
Definition lenNames (ms : list member) : list string :=
  flat_map (fun m => match m with MUnion _ _ len _ => refsL len | _ => [] end) ms.
Definition countNames (ms : list member) : list string := flat_map (fun nt => refsT (snd nt)) (flat_map allFields ms).
Definition isFail (m : member) : bool := match m with MFail => true | _ => false end.

Section Class.
Variable camel : string -> string.
Variable r : resolver.
(** Structs whose encoding may depend on what follows; structs with at most one
    vector. *)
Variable gr sg : string -> bool.

(** No name of [a] has the same Go name as one of [b]. *)
Definition disjC (a b : list string) : bool := disjointb (map camel a) (map camel b).

(** Members that look at what follows them. *)
Definition greedyF (m : member) : bool :=
  match m with
  | MField _ (TVar _ None) => true
  | MField _ (TStruct n) => gr n
  | MEOS | MIgnore => true
  | _ => false
  end.
Definition greedyM (m : member) : bool :=
  match m with
  | MUnion _ _ None cs => existsb (fun c => existsb greedyF (ucase_members c)) cs
  | _ => greedyF m
  end.
Definition greedyMs (ms : list member) : bool := existsb greedyM ms.

(** Members with at most one vector. *)
Definition singleM (m : member) : bool :=
  match m with
  | MField _ (TStruct n) => sg n
  | MUnion _ _ _ _ | MIgnore => false
  | _ => true
  end.

(** All ranges are within [sz] bits. *)
Definition listFits (sz : Z) (l : intlist) : bool :=
  forallb (fun g => match range_bounds (Constant r) g with
    | Some (a, b) => (0 <=? a) && (a <=? b) && (b <? 2 ^ sz) && (b <? two63)
    | None => false end) l.
(** All integers from [a] to [b] are in the list. *)
Fixpoint coversN (n : nat) (l : intlist) (a b : Z) : bool :=
  if b <? a then true else
  match n with
  | O => false
  | S n' =>
      match find (fun g => match range_bounds (Constant r) g with Some (c, d) => (c <=? a) && (a <=? d) | None => false end) l with
      | Some g => match range_bounds (Constant r) g with Some (_, d) => coversN n' l (d + 1) b | None => false end
      | None => false
      end
  end.
Definition covers (l : intlist) (a b : Z) : bool := coversN (S (List.length l)) l a b.
Definition refOK (ctxs : list string) (f : idref) : bool := String.eqb (rscope f) "" || memb (rscope f) ctxs.
Definition ctxOK (ctxs : list string) (n : string) : bool :=
  match Struct r n with Some s => forallb (fun x => memb x ctxs) (scontexts s) | None => true end.

(** Elements of arrays: one vector each, and the end is found without looking
    at what follows. *)
Definition elemOK (ctxs : list string) (b : type) : bool :=
  match b with
  | TInt sz None => goodSize sz
  | TChar | TNul | TPtr => true
  | TStruct n => sg n && negb (gr n) && ctxOK ctxs n
  | _ => false
  end.
Definition typeOK (ctxs : list string) (t : type) : bool :=
  match t with
  | TInt sz None => goodSize sz
  | TInt sz (Some l) => goodSize sz && listFits sz l
  | TStruct n => ctxOK ctxs n
  | TFixed b i => elemOK ctxs b && goodCount r i
  | TVar b None => elemOK ctxs b
  | TVar b (Some (LRef f)) => elemOK ctxs b && refOK ctxs f
  | _ => true
  end.

Section Struct.
Variable strct : struct.
Notation ctxs := (scontexts strct).
Notation R := (refsMs (members_of strct)).

(** Fields used as length or tag are integers.  The length of an array may be any
    number from 1 to 20; the length of a union has no constraint. *)
Definition fieldOK (n : string) (t : type) : bool :=
  typeOK ctxs t &&
  match t with
  | TInt _ None => true
  | TInt _ (Some l) => negb (memb n (lenNames (members_of strct))) && (negb (memb n (countNames (members_of strct))) || covers l 1 20)
  | _ => negb (memb n R)
  end && disjC (refsT t) [n].

(** Declarations come before use and have different Go names; only the last
    member looks at what follows. *)
Fixpoint listOK (ok : member -> bool) (ms : list member) : bool :=
  match ms with
  | [] => true
  | m :: ms' =>
      ok m && disjC (fieldNames m) (namesMs ms') && disjC (refsM m) (namesMs ms') &&
      forallb (fun k => memb k (fieldNames m) || disjC [k] (fieldNames m)) (refsMs ms') &&
      (negb (greedyM m) || isNil ms') && listOK ok ms'
  end.

(** Members of a union case: no structs (other than in arrays). *)
Definition simpleM (m : member) : bool :=
  match m with
  | MField n t => fieldOK n t && negb (isStruct t)
  | MUnion _ _ _ _ => false
  | _ => true
  end.
(** The tag can have the values of a case that does not fail. *)
Definition caseFits (tag : idref) (cst : option intlist) (c : ucase) : bool :=
  negb (String.eqb (rscope tag) "") || existsb isFail (ucase_members c) ||
  match cst, ucase_list c with
  | None, _ => true
  | Some l, Some l' => forallb (fun g => match range_bounds (Constant r) g with Some (a, b) => covers l a b | None => false end) l'
  | Some _, None => false
  end.
(** Tag of at most 32 bits, cases within its range and without overlap; a case
    uses fields of its own or of the struct. *)
Definition unionOK (tag : idref) (len : option lconstraint) (cs : list ucase) (names : list string) : bool :=
  refOK ctxs tag && match len with Some (LRef f) => refOK ctxs f | _ => true end &&
  match IntType r tag strct with
  | Ok (sz, cst) => (0 <=? sz) && (sz <=? 32) && forallb (fun c => listFits sz (caseRanges c) && caseFits tag cst c) cs
  | _ => false
  end &&
  match Intervals r (flat_map caseRanges cs) with Ok _ => true | _ => false end &&
  forallb (fun c => match ucase_list c with Some [] => false | _ => true end) cs &&
  disjC (localRef tag ++ refsL len) names &&
  forallb (fun c => listOK simpleM (ucase_members c) &&
    forallb (fun k => memb k (namesMs (ucase_members c)) || disjC [k] names) (refsMs (ucase_members c))) cs.
Definition memOK (m : member) : bool :=
  match m with
  | MField n t => fieldOK n t
  | MUnion _ tag len cs => unionOK tag len cs (fieldNames m)
  | _ => true
  end.
(** What follows a nested struct uses no earlier field; fields of union cases
    are not used outside. *)
Fixpoint topOK (ms : list member) : bool :=
  match ms with
  | [] => true
  | m :: ms' =>
      match m with
      | MField _ (TStruct _) => forallb (fun k => memb k (namesMs ms')) (refsMs ms')
      | MUnion _ _ _ _ => disjointb (refsMs ms') (fieldNames m)
      | _ => true
      end && topOK ms'
  end.
Definition structOK : bool :=
  let ms := members_of strct in
  negb (isNil ms) && listOK memOK ms && topOK ms && forallb (fun k => memb k (namesMs ms)) (refsMs ms) &&
  (negb (greedyMs ms) || gr (sname strct)) && (negb (sg (sname strct)) || forallb singleM ms).
End Struct.

Definition classFiles (fs : list file) : bool := forallb structOK (definedStructs fs).
End Class.

(** The fields that hold the lengths of unions can hold all numbers below
    [lim]. *)
Definition lensHold (lim : Z) (s : struct) : bool :=
  forallb (fun nt => match snd nt with
    | TInt sz _ => negb (memb (fst nt) (lenNames (members_of s))) || (lim <=? 2 ^ sz)
    | _ => true end) (flat_map allFields (members_of s)).
Definition lensFiles (lim : Z) (fs : list file) : bool := forallb (lensHold lim) (definedStructs fs).
