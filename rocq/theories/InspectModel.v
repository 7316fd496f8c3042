(** Model of inspect/inspect.go and inspect/branches.go.  Definitions only. *)
From Coq Require Import ZArith String List Bool.
From Verif Require Import Base Ast IntervalsModel.
Import ListNotations.
Open Scope string_scope.
Open Scope list_scope.
Open Scope Z_scope.

(** inspect.go:12-23 [Structs]: name to struct map of one file. *)
Fixpoint structsMap (m : amap struct) (l : list struct) : outcome (amap struct) :=
  match l with
  | [] => Ok m
  | s :: l' =>
      match alookup (sname s) m with
      | Some _ => Err "duplicate struct name"
      | None => structsMap (ainsert (sname s) s m) l'
      end
  end.
Definition Structs (f : file) : outcome (amap struct) := structsMap [] (fstructs f).

(** inspect.go:25-36 [Contexts]. *)
Fixpoint contextsMap (m : amap context) (l : list context) : outcome (amap context) :=
  match l with
  | [] => Ok m
  | c :: l' =>
      match alookup (cname c) m with
      | Some _ => Err "duplicate context name"
      | None => contextsMap (ainsert (cname c) c m) l'
      end
  end.
Definition Contexts (f : file) : outcome (amap context) := contextsMap [] (fcontexts f).

(** inspect.go:38-50 [Constants]. *)
Fixpoint constantsMap (m : amap Z) (l : list constant) : outcome (amap Z) :=
  match l with
  | [] => Ok m
  | c :: l' =>
      match alookup (kname c) m with
      | Some _ => Err "duplicate constant name"
      | None => constantsMap (ainsert (kname c) (kvalue c) m) l'
      end
  end.
Definition Constants (f : file) : outcome (amap Z) := constantsMap [] (fconstants f).

(** inspect.go:52-57 [Resolver]. *)
Record resolver : Type := mkRes {
  structs : amap struct;
  contexts : amap context;
  constants : amap Z }.

(** inspect.go:59-66. *)
Definition NewResolverEmpty : resolver := mkRes [] [] [].

(** inspect.go:131-136, 165-169, 186-190: lookups. *)
Definition Struct (r : resolver) (n : string) : option struct := alookup n (structs r).
Definition Context (r : resolver) (n : string) : option context := alookup n (contexts r).
Definition Constant (r : resolver) (n : string) : option Z := alookup n (constants r).

(** Methods that change the receiver return the new receiver together with the
    outcome of the call; on an error the receiver may already have changed. *)
Definition mres := (resolver * outcome unit)%type.

(** inspect.go:119-127 [AddStruct]. *)
Definition AddStruct (r : resolver) (s : struct) : mres :=
  match Struct r (sname s) with
  | Some e =>
      if negb (Extern e) then (r, Err "cannot override non-extern struct")
      else (mkRes (ainsert (sname s) s (structs r)) (contexts r) (constants r), Ok tt)
  | None => (mkRes (ainsert (sname s) s (structs r)) (contexts r) (constants r), Ok tt)
  end.

(** inspect.go:156-163 [AddContext]. *)
Definition AddContext (r : resolver) (c : context) : mres :=
  match Context r (cname c) with
  | Some _ => (r, Err "cannot override context")
  | None => (mkRes (structs r) (ainsert (cname c) c (contexts r)) (constants r), Ok tt)
  end.

(** inspect.go:176-184 [SetConstant]. *)
Definition SetConstant (r : resolver) (n : string) (v : Z) : mres :=
  match Constant r n with
  | Some e =>
      if negb (e =? v) then (r, Err "cannot override constant")
      else (mkRes (structs r) (contexts r) (ainsert n v (constants r)), Ok tt)
  | None => (mkRes (structs r) (contexts r) (ainsert n v (constants r)), Ok tt)
  end.

(** inspect.go:171-174 [AddConstant]. *)
Definition AddConstant (r : resolver) (c : constant) : mres :=
  SetConstant r (kname c) (kvalue c).

(** A loop calling a fallible method for every item, stopping at the first error. *)
Fixpoint addAll {A} (add : resolver -> A -> mres) (r : resolver) (l : list A) : mres :=
  match l with
  | [] => (r, Ok tt)
  | a :: l' =>
      let '(r', o) := add r a in
      match o with
      | Ok _ => addAll add r' l'
      | _ => (r', o)
      end
  end.

(** The iteration orders of the three [range] loops over maps in [AddFile].
    Go leaves them open. *)
Record orders : Type := mkOrd {
  ord_structs : list struct -> list struct;
  ord_contexts : list context -> list context;
  ord_constants : list (string * Z) -> list (string * Z) }.

(** inspect.go:84-117 [AddFile]. *)
Definition AddFile (o : orders) (r : resolver) (f : file) : mres :=
  match Structs f with
  | Ok sm =>
      let '(r1, e1) := addAll AddStruct r (ord_structs o (map snd sm)) in
      match e1 with
      | Ok _ =>
          match Contexts f with
          | Ok cm =>
              let '(r2, e2) := addAll AddContext r1 (ord_contexts o (map snd cm)) in
              match e2 with
              | Ok _ =>
                  match Constants f with
                  | Ok km =>
                      addAll (fun r kv => SetConstant r (fst kv) (snd kv)) r2
                             (ord_constants o km)
                  | Err e => (r2, Err e)
                  | Panic m => (r2, Panic m)
                  | OutOfFuel => (r2, OutOfFuel)
                  end
              | _ => (r2, e2)
              end
          | Err e => (r1, Err e)
          | Panic m => (r1, Panic m)
          | OutOfFuel => (r1, OutOfFuel)
          end
      | _ => (r1, e1)
      end
  | Err e => (r, Err e)
  | Panic m => (r, Panic m)
  | OutOfFuel => (r, OutOfFuel)
  end.

(** inspect.go:73-82 [NewResolverFiles]; every call of [AddFile] may see
    different iteration orders. *)
Fixpoint addFiles (os : nat -> orders) (k : nat) (r : resolver) (fs : list file) : outcome resolver :=
  match fs with
  | [] => Ok r
  | f :: fs' =>
      let '(r', o) := AddFile (os k) r f in
      match o with
      | Ok _ => addFiles os (S k) r' fs'
      | Err e => Err e
      | Panic m => Panic m
      | OutOfFuel => OutOfFuel
      end
  end.
Definition NewResolverFiles (os : nat -> orders) (fs : list file) : outcome resolver :=
  addFiles os 0 NewResolverEmpty fs.

(** inspect.go:144-154 [StructNonExtern]. *)
Definition StructNonExtern (r : resolver) (n : string) : outcome struct :=
  match Struct r n with
  | None => Err "struct not found"
  | Some s => if Extern s then Err "struct is external" else Ok s
  end.

(** inspect.go:192-206 [Integer]. *)
Definition Integer (r : resolver) (i : integer) : outcome Z :=
  match i with
  | IConst n => match Constant r n with Some v => Ok v | None => Err "constant undefined" end
  | ILit v => Ok v
  end.

(** inspect.go:211-227: one range of [Intervals]. *)
Definition rangeInterval (r : resolver) (g : irange) : outcome interval :=
  lo <- Integer r (rlow g) ;;
  match rhigh g with
  | None => Single (u64 lo)
  | Some h => hi <- Integer r h ;; Range (u64 lo) (u64 hi)
  end.

(** inspect.go:208-232 [Intervals]. *)
Definition Intervals (r : resolver) (l : intlist) : outcome iset :=
  is <- mapM (rangeInterval r) l ;;
  b <- Overlaps is ;;
  if b then Err "overlapping intervals" else NewSet is.

(** inspect.go:261-270 [structFields]. *)
Definition structFields (s : struct) : list (string * type) :=
  flat_map (fun m => match m with MField n t => [(n, t)] | _ => [] end) (members_of s).

(** inspect.go:246-257: search of a field list; returns size and constraint of
    the integer type. *)
Fixpoint findIntField (n : string) (fs : list (string * type)) : outcome (Z * option intlist) :=
  match fs with
  | [] => Err "could not resolve reference"
  | (fn, t) :: fs' =>
      if String.eqb fn n then
        match t with
        | TInt sz c => Ok (sz, c)
        | _ => Err "referenced field does not have integer type"
        end
      else findIntField n fs'
  end.

(** inspect.go:234-259 [IntType]. *)
Definition IntType (r : resolver) (ref : idref) (local : struct) : outcome (Z * option intlist) :=
  if String.eqb (rscope ref) "" then findIntField (rname ref) (structFields local)
  else match Context r (rscope ref) with
       | None => Err "could not find context"
       | Some c => findIntField (rname ref) (cmembers c)
       end.

(** branches.go:8-17. *)
Record branch : Type := mkBranch { bset : iset; bcase : ucase }.

(** branches.go:31-49: the loop of [NewBranches]: the default set and case so
    far, and the branches so far. *)
Fixpoint branchLoop (r : resolver) (cs : list ucase) (dset : iset) (dcase : option ucase)
  : outcome (list branch * iset * option ucase) :=
  match cs with
  | [] => Ok ([], dset, dcase)
  | c :: cs' =>
      match ucase_list c with
      | None => branchLoop r cs' dset (Some c)
      | Some l =>
          s <- Intervals r l ;;
          dset' <- Subtract dset s ;;
          '(bs, d, k) <- branchLoop r cs' dset' dcase ;;
          Ok (mkBranch s c :: bs, d, k)
      end
  end.

(** branches.go:19-55 [NewBranches]. *)
Definition NewBranches (r : resolver) (s : struct) (tag : idref) (cs : list ucase)
  : outcome (list branch) :=
  '(sz, _) <- IntType r tag s ;;
  d0 <- IntTypeSet sz ;;
  '(bs, d, k) <- branchLoop r cs d0 None ;;
  Ok (match k with Some c => bs ++ [mkBranch d c] | None => bs end).

(** branches.go:57-65 [Lookup]; the argument is converted to uint64. *)
Definition Lookup (bs : list branch) (x : Z) : option branch :=
  find (fun b => Contains (bset b) (u64 x)) bs.
