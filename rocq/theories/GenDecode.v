(** A decoder working directly on the AST: a stepping stone between the
    generated Go code (GenSim.v shows that they do the same) and the format
    specification (WireSpec.v).  No property is stated with it. *)
From Coq Require Import ZArith String List Bool.
From Verif Require Import Base Ast IntervalsModel InspectModel InspectSpec GoLang GenModel.
Import ListNotations.
Open Scope string_scope.
Open Scope list_scope.
Open Scope Z_scope.

Section Dec.
Variable camel : string -> string.
Variable r : resolver.

Definition asInt (o : option value) : outcome Z :=
  match o with Some (VInt z) => Ok z | _ => stuck end.
Definition asFields (o : option value) : outcome (amap value) :=
  match o with Some (VStruct _ fs) => Ok fs | _ => stuck end.

(** The value of a reference: a field of the struct so far, or of a context. *)
Definition refVal (fs cenv : amap value) (f : idref) : outcome Z :=
  if String.eqb (rscope f) "" then asInt (alookup (camel (rname f)) fs)
  else (cf <- asFields (alookup (rscope f) cenv) ;; asInt (alookup (camel (rname f)) cf)).

(** Membership in an integer list (constants known to be defined). *)
Definition inRange (x : Z) (g : irange) : bool :=
  match range_bounds (Constant r) g with
  | Some (a, b) => (a <=? x) && (x <=? b)
  | None => false
  end.
Definition inList (x : Z) (l : intlist) : bool := existsb (inRange x) l.

Definition decInt (sz : Z) (cst : option intlist) (c : bytes) : outcome (value * bytes) :=
  if blen c <? sz / 8 then Err "data too short"
  else
    let x := be (firstn (Z.to_nat (sz / 8)) c) in
    if match cst with None => true | Some l => inList x l end
    then Ok (VInt x, skipn (Z.to_nat (sz / 8)) c)
    else Err "integer constraint violated".

Definition decNul (c : bytes) : outcome (value * bytes) :=
  let i := indexByte c 0 0 in
  if i <? 0 then Err "could not parse nul-term string"
  else if (s64 (i + 1) <? 0) || (blen c <? s64 (i + 1)) then Panic "slice bounds out of range"
  else Ok (VStr (firstn (Z.to_nat i) c), skipn (Z.to_nat (s64 (i + 1))) c).

Section Body.
Variable dcall : string -> amap value -> bytes -> outcome (value * bytes).
Variable n : nat.            (* bound on loop iterations *)
Variable cenv : amap value.  (* contexts *)
Variable d : Z.              (* length of the data given to the struct *)

(** Types that are not arrays. *)
Definition decBase (t : type) (c : bytes) : outcome (value * bytes) :=
  match t with
  | TInt sz cst => decInt sz cst c
  | TChar => decInt 8 None c
  | TNul => decNul c
  | TPtr => Ok (VInt (s64 (d - blen c)), c)
  | TStruct nm => dcall nm cenv c
  | _ => stuck
  end.

(** [k] elements. *)
Fixpoint decFor (m : nat) (t : type) (k : Z) (c : bytes) : outcome (list value * bytes) :=
  if k <=? 0 then Ok ([], c)
  else match m with
       | O => OutOfFuel
       | S m' =>
           '(v, c1) <- decBase t c ;;
           '(vs, c2) <- decFor m' t (k - 1) c1 ;;
           Ok (v :: vs, c2)
       end.

(** Elements until nothing is left. *)
Fixpoint decWhile (m : nat) (t : type) (c : bytes) : outcome (list value * bytes) :=
  if blen c <=? 0 then Ok ([], c)
  else match m with
       | O => OutOfFuel
       | S m' =>
           '(v, c1) <- decBase t c ;;
           '(vs, c2) <- decWhile m' t c1 ;;
           Ok (v :: vs, c2)
       end.

(** Run [body] on the first [k] bytes, which it must use up. *)
Definition decWithin {A} (k : Z) (c : bytes) (body : bytes -> outcome (A * bytes)) : outcome (A * bytes) :=
  if blen c <? k then Err "data too short"
  else if k <? 0 then Panic "slice bounds out of range"
  else
    '(a, c1) <- body (firstn (Z.to_nat k) c) ;;
    if 0 <? blen c1 then Err "trailing data disallowed"
    else Ok (a, skipn (Z.to_nat k) c).

(** All but the last [k] bytes. *)
Definition decLeaving {A} (k : Z) (c : bytes) (body : bytes -> outcome (A * bytes)) : outcome (A * bytes) :=
  if k <? 0 then stuck
  else if blen c <? k then Err "data too short"
  else decWithin (s64 (blen c - k)) c body.

Definition decType (fs : amap value) (t : type) (c : bytes) : outcome (value * bytes) :=
  match t with
  | TFixed b s =>
      k <- integerOf r s ;;
      '(vs, c1) <- decFor n b k c ;; Ok (VList vs, c1)
  | TVar b (Some (LRef f)) =>
      x <- refVal fs cenv f ;;
      g <- tipe camel r b ;;
      if (s64 x <? 0) || (maxAlloc <? s64 x * gsize g) then Panic "makeslice: len out of range"
      else ('(vs, c1) <- decFor n b (s64 x) c ;; Ok (VList vs, c1))
  | TVar b None => '(vs, c1) <- decWhile n b c ;; Ok (VList vs, c1)
  | TVar b (Some (LLeftover i)) =>
      k <- integerOf r i ;;
      decLeaving k c (fun c0 => '(vs, c1) <- decWhile n b c0 ;; Ok (VList vs, c1))
  | _ => decBase t c
  end.

(** The first case listing the tag, else the default. *)
Fixpoint pickCase (x : Z) (cs : list ucase) : option (list member) :=
  match cs with
  | [] => None
  | UCase None _ :: cs' => pickCase x cs'
  | UCase (Some l) ms :: cs' => if inList x l then Some ms else pickCase x cs'
  end.
Fixpoint defaultCase (cs : list ucase) : option (list member) :=
  match cs with
  | [] => None
  | UCase None ms :: _ => Some ms
  | UCase (Some _) _ :: cs' => defaultCase cs'
  end.

Fixpoint decMember (m : member) (fs : amap value) (c : bytes) {struct m} : outcome (amap value * bytes) :=
  let decMembers := fix decMembers (ms : list member) (fs : amap value) (c : bytes) :=
    match ms with
    | [] => Ok (fs, c)
    | m1 :: ms' => '(fs1, c1) <- decMember m1 fs c ;; decMembers ms' fs1 c1
    end in
  match m with
  | MField nm t => '(v, c1) <- decType fs t c ;; Ok (assign (camel nm) v fs, c1)
  | MUnion _ tag len cs =>
      let dflt := fix dflt (cs : list ucase) (fs : amap value) (c : bytes) :=
        match cs with
        | [] => Ok (fs, c)
        | UCase None ms :: _ => decMembers ms fs c
        | UCase (Some _) _ :: cs' => dflt cs' fs c
        end in
      let pick := fix pick (x : Z) (cs0 : list ucase) (fs : amap value) (c : bytes) :=
        match cs0 with
        | [] => dflt cs fs c
        | UCase None _ :: cs' => pick x cs' fs c
        | UCase (Some l) ms :: cs' => if inList x l then decMembers ms fs c else pick x cs' fs c
        end in
      let body (c : bytes) := (x <- refVal fs cenv tag ;; pick x cs fs c) in
      match len with
      | None => body c
      | Some (LRef f) => k <- refVal fs cenv f ;; decWithin (s64 k) c body
      | Some (LLeftover i) => k <- integerOf r i ;; decLeaving k c body
      end
  | MEOS => if 0 <? blen c then Err "trailing data disallowed" else Ok (fs, c)
  | MIgnore => Ok (fs, [])
  | MFail => Err "disallowed case"
  end.

Fixpoint decMembers (ms : list member) (fs : amap value) (c : bytes) : outcome (amap value * bytes) :=
  match ms with
  | [] => Ok (fs, c)
  | m1 :: ms' => '(fs1, c1) <- decMember m1 fs c ;; decMembers ms' fs1 c1
  end.
End Body.

(** Arguments of a nested Parse. *)
Definition ctxArgs (cenv : amap value) (ns : list string) : outcome (list value) :=
  mapM (fun x => match alookup x cenv with Some v => Ok v | None => stuck end) ns.

Fixpoint decCall (m : nat) (nm : string) (cenv : amap value) (c : bytes) {struct m} : outcome (value * bytes) :=
  match Struct r nm with
  | None => stuck
  | Some s =>
      ds <- structDecl camel r s ;;
      args <- ctxArgs cenv (scontexts s) ;;
      match m with
      | O => OutOfFuel
      | S m' =>
          '(fs, c1) <- decMembers (decCall m') m' (combine (scontexts s) args) (blen c)
                         (members_of s) (zeros ds) c ;;
          Ok (VStruct (camel nm) fs, c1)
      end
  end.

(** x.Parse on a receiver with fields [fs]. *)
Definition decStruct (m : nat) (s : struct) (fs cenv : amap value) (c : bytes) : outcome (amap value * bytes) :=
  match m with
  | O => OutOfFuel
  | S m' => decMembers (decCall m') m' cenv (blen c) (members_of s) fs c
  end.
End Dec.
