(** Static conditions on declarations, as boolean checks.  They say what it
    takes for the generated package to be valid Go with the intended meaning:
    integer widths that exist, defined constants, references to earlier integer
    fields or declared contexts, distinct names, no clash with the identifiers
    the generated code uses for itself. *)
From Coq Require Import ZArith String List Bool.
From Verif Require Import Base Ast IntervalsModel InspectModel InspectSpec GoLang GenModel.
Import ListNotations.
Open Scope string_scope.
Open Scope list_scope.
Open Scope Z_scope.

Definition memb (x : string) (l : list string) : bool := existsb (String.eqb x) l.
Fixpoint nodupb (l : list string) : bool :=
  match l with [] => true | x :: l' => negb (memb x l') && nodupb l' end.
Definition disjointb (a b : list string) : bool := forallb (fun x => negb (memb x b)) a.

(** Local variables the code generated for a type declares. *)
Fixpoint localsT (t : type) : list string :=
  match t with
  | TNul => ["i"]
  | TStruct _ => ["err"]
  | TFixed b _ => "idx" :: localsT b
  | TVar b (Some (LRef _)) => "idx" :: localsT b
  | TVar b None => "tmp" :: localsT b
  | TVar b (Some (LLeftover _)) => "restore" :: "tmp" :: localsT b
  | TInt _ _ | TChar | TPtr => []
  end.
Fixpoint localsM (m : member) : list string :=
  match m with
  | MField _ t => localsT t
  | MUnion _ _ len cs =>
      (match len with Some _ => ["restore"] | None => [] end) ++
      flat_map (fun c => match c with UCase _ ms => flat_map localsM ms end) cs
  | MEOS | MFail | MIgnore => []
  end.

Section Check.
Variable camel : string -> string.
Variable r : resolver.

Definition goodSize (sz : Z) : bool := (sz =? 8) || (sz =? 16) || (sz =? 32) || (sz =? 64).
Definition definedList (l : intlist) : bool :=
  forallb (fun g => match range_bounds (Constant r) g with Some _ => true | None => false end) l
  && negb (match l with [] => true | _ => false end).
(** A defined, non-negative 63-bit integer. *)
Definition goodCount (i : integer) : bool :=
  match int_value (Constant r) i with Some z => (0 <=? z) && (z <? two63) | None => false end.

Definition checkInt (sz : Z) (cst : option intlist) : bool :=
  goodSize sz && match cst with None => true | Some l => definedList l end.

(** A type that is not an array; struct references resolve to structs that are
    defined and need no contexts beyond [ctxs]. *)
Definition checkBase (ctxs : list string) (t : type) : bool :=
  match t with
  | TInt sz cst => checkInt sz cst
  | TChar | TPtr | TNul => true
  | TStruct n =>
      match Struct r n with
      | Some s => negb (Extern s) && forallb (fun x => memb x ctxs) (scontexts s)
      | None => false
      end
  | TFixed _ _ | TVar _ _ => false
  end.

(** Width of an integer field of a context. *)
Definition ctxField (ctxs : list string) (scope n : string) : option Z :=
  if memb scope ctxs then
    match Context r scope with
    | Some c => match findIntField n (cmembers c) with Ok (sz, _) => Some sz | _ => None end
    | None => None
    end
  else None.

(** Integer fields parsed so far: name and width. *)
Definition known := list (string * Z).
Definition refWidth (ctxs : list string) (k : known) (f : idref) : option Z :=
  if String.eqb (rscope f) "" then alookup (rname f) k else ctxField ctxs (rscope f) (rname f).

Definition checkType (ctxs : list string) (k : known) (t : type) : bool :=
  match t with
  | TFixed b s => checkBase ctxs b && goodCount s
  | TVar b None => checkBase ctxs b
  | TVar b (Some (LLeftover i)) => checkBase ctxs b && goodCount i
  | TVar b (Some (LRef f)) =>
      checkBase ctxs b && match refWidth ctxs k f with Some _ => true | None => false end
  | _ => checkBase ctxs t
  end.

Definition addKnown (k : known) (m : member) : known :=
  match m with
  | MField n (TInt sz _) => (n, sz) :: k
  | _ => k
  end.

Fixpoint checkMember (ctxs : list string) (k : known) (m : member) {struct m} : bool :=
  match m with
  | MField _ t => checkType ctxs k t
  | MUnion _ tag len cs =>
      match refWidth ctxs k tag with Some _ => true | None => false end &&
      match len with
      | None => true
      | Some (LRef f) => match refWidth ctxs k f with Some _ => true | None => false end
      | Some (LLeftover i) => goodCount i
      end &&
      forallb (fun c => match c with UCase l ms =>
        match l with None => true | Some l' => definedList l' end &&
        (fix checkMembers (k : known) (ms : list member) {struct ms} : bool :=
           match ms with
           | [] => true
           | m1 :: ms' => checkMember ctxs k m1 && checkMembers (addKnown k m1) ms'
           end) k ms end) cs
  | MEOS | MFail | MIgnore => true
  end.
Fixpoint checkMembers (ctxs : list string) (k : known) (ms : list member) {struct ms} : bool :=
  match ms with
  | [] => true
  | m1 :: ms' => checkMember ctxs k m1 && checkMembers ctxs (addKnown k m1) ms'
  end.

(** Trunnel names of all fields of a struct, those of union cases included. *)
Fixpoint fieldNames (m : member) : list string :=
  match m with
  | MField n _ => [n]
  | MUnion _ _ _ cs => flat_map (fun c => match c with UCase _ ms => flat_map fieldNames ms end) cs
  | MEOS | MFail | MIgnore => []
  end.

(** Receiver, parameters and locals of the Parse method do not clash. *)
Definition checkScope (s : struct) : bool :=
  match receiverName (sname s) with
  | Ok rv =>
      let locals := "cur" :: "data" :: "err" :: flat_map localsM (members_of s) in
      negb (memb rv locals) && disjointb (scontexts s) locals &&
      negb (memb rv (scontexts s)) && nodupb (scontexts s)
  | _ => false
  end.

(** [fail] and [ignore] occur in unions only. *)
Definition topMember (m : member) : bool :=
  match m with MFail | MIgnore => false | _ => true end.

(** At most one default per union (a Go switch with two does not compile). *)
Definition oneDefaultb (cs : list ucase) : bool :=
  Nat.leb (List.length (filter (fun c => match ucase_list c with None => true | Some _ => false end) cs)) 1.
Fixpoint defaultsM (m : member) : bool :=
  match m with
  | MUnion _ _ _ cs =>
      oneDefaultb cs && forallb (fun c => match c with UCase _ ms => forallb defaultsM ms end) cs
  | _ => true
  end.

Definition checkStruct (s : struct) : bool :=
  forallb topMember (members_of s) && forallb defaultsM (members_of s) &&
  checkMembers (scontexts s) [] (members_of s) &&
  nodupb (map camel (flat_map fieldNames (members_of s))) &&
  forallb (fun x => match Context r x with Some _ => true | None => false end) (scontexts s) &&
  checkScope s.

(** Position fields are outside length-limited parts.  The source syntax allows
    nothing else; an AST built by hand may. *)
Fixpoint noPtrT (t : type) : bool :=
  match t with TPtr => false | TFixed b _ | TVar b _ => noPtrT b | _ => true end.
Fixpoint noPtrM (m : member) : bool :=
  match m with
  | MField _ t => noPtrT t
  | MUnion _ _ _ cs => forallb (fun c => match c with UCase _ ms => forallb noPtrM ms end) cs
  | _ => true
  end.
Fixpoint ptrM (m : member) : bool :=
  match m with
  | MField _ (TVar b (Some (LLeftover _))) => noPtrT b
  | MField _ _ => true
  | MUnion _ _ (Some _) cs => forallb (fun c => match c with UCase _ ms => forallb noPtrM ms end) cs
  | MUnion _ _ None cs => forallb (fun c => match c with UCase _ ms => forallb ptrM ms end) cs
  | _ => true
  end.

(** Fields of contexts are integers with distinct Go names. *)
Definition checkContext (c : context) : bool :=
  forallb (fun f => match snd f with TInt sz cst => checkInt sz cst | _ => false end) (cmembers c) &&
  nodupb (map fst (cmembers c)) && nodupb (map (fun f => camel (fst f)) (cmembers c)).

(** The whole input. *)
Definition checkFiles (fs : list file) : bool :=
  forallb checkStruct (definedStructs fs) &&
  forallb checkContext (flat_map fcontexts fs) &&
  nodupb (map (fun c => camel (cname c)) (flat_map fcontexts fs) ++
          map (fun s => camel (sname s)) (definedStructs fs)).

Definition ptrFiles (fs : list file) : bool :=
  forallb (fun s => forallb ptrM (members_of s)) (definedStructs fs).
End Check.
