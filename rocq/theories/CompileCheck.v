(** Further conditions on declarations, beyond GenCheck.v, for the generated
    package to compile: integers in constraints and cases fit the field they are
    compared with, and names do not hide what the generated code refers to. *)
From Coq Require Import ZArith String List Bool.
From Verif Require Import Base Ast IntervalsModel InspectModel InspectSpec GoLang GenModel GenCheck GoTypes.
Import ListNotations.
Open Scope string_scope.
Open Scope list_scope.
Open Scope Z_scope.

(** Predeclared identifiers and packages the generated code uses. *)
Definition usedNames : list string :=
  ["len"; "int"; "string"; "byte"; "uint8"; "uint16"; "uint32"; "uint64"; "error"; "make"; "new"; "append"; "nil";
   "errors"; "bytes"; "binary"].
(** Variables the generated code declares. *)
Definition localNames : list string := ["cur"; "data"; "err"; "i"; "idx"; "tmp"; "restore"].

Section Check.
Variable camel : string -> string.
Variable r : resolver.

(** All listed integers are values of a [sz]-bit unsigned integer. *)
Definition fitsList (sz : Z) (l : intlist) : bool :=
  forallb (fun g => match range_bounds (Constant r) g with
                    | Some (a, b) => (0 <=? a) && (a <? 2 ^ sz) && (0 <=? b) && (b <? 2 ^ sz)
                    | None => false
                    end) l.
Fixpoint fitsT (t : type) : bool :=
  match t with
  | TInt sz (Some l) => fitsList sz l
  | TFixed b _ | TVar b _ => fitsT b
  | _ => true
  end.
Fixpoint fitsM (ctxs : list string) (k : known) (m : member) {struct m} : bool :=
  match m with
  | MField _ t => fitsT t
  | MUnion _ tag _ cs =>
      match refWidth r ctxs k tag with
      | None => false
      | Some sz =>
          forallb (fun c => match c with UCase l ms =>
            match l with None => true | Some l' => fitsList sz l' end &&
            (fix fitsMs (k : known) (ms : list member) {struct ms} : bool :=
               match ms with
               | [] => true
               | m1 :: ms' => fitsM ctxs k m1 && fitsMs (addKnown k m1) ms'
               end) k ms end) cs
      end
  | MEOS | MFail | MIgnore => true
  end.
Fixpoint fitsMs (ctxs : list string) (k : known) (ms : list member) {struct ms} : bool :=
  match ms with
  | [] => true
  | m1 :: ms' => fitsM ctxs k m1 && fitsMs ctxs (addKnown k m1) ms'
  end.

Definition structTypes (fs : list file) : list string := map (fun s => camel (sname s)) (definedStructs fs).
Definition typeNames (fs : list file) : list string :=
  map (fun c => camel (cname c)) (flat_map fcontexts fs) ++ structTypes fs.
(** Types and functions of the package. *)
Definition declaredNames (fs : list file) : list string :=
  typeNames fs ++ map (fun s => ("Parse" ++ camel (sname s))%string) (definedStructs fs).

Definition namesStruct (fs : list file) (s : struct) : bool :=
  let fields := map camel (flat_map fieldNames (members_of s)) in
  forallb goName fields && negb (memb "Parse" fields) &&
  forallb goName (scontexts s) && disjointb (scontexts s) usedNames &&
  disjointb (scontexts s) (structTypes fs) &&
  match receiverName (sname s) with
  | Ok rv => goName rv && negb (memb rv (structTypes fs))
  | _ => false
  end.

(** Nothing the declarations name hides what the generated code refers to. *)
Definition namesFiles (fs : list file) : bool :=
  nodupb (declaredNames fs) && forallb goName (declaredNames fs) &&
  disjointb (declaredNames fs) usedNames && disjointb (structTypes fs) localNames &&
  forallb (fun c => forallb (fun f => goName (camel (fst f))) (cmembers c)) (flat_map fcontexts fs) &&
  forallb (namesStruct fs) (definedStructs fs).
(** Every integer fits what it is compared with. *)
Definition fitsFiles (fs : list file) : bool :=
  forallb (fun s => fitsMs (scontexts s) [] (members_of s)) (definedStructs fs).
Definition compileFiles (fs : list file) : bool := namesFiles fs && fitsFiles fs.
End Check.
