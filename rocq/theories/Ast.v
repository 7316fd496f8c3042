(** Model of ast/types.go: the syntax tree of a trunnel file. *)
From Coq Require Import ZArith String List.
From Verif Require Import Base.
Import ListNotations.
Open Scope Z_scope.

(** ast/types.go:135-146.  The Go type is [interface{}]; the two concrete types
    used anywhere are kept. *)
Inductive integer : Type :=
| IConst (name : string)        (* *ast.IntegerConstRef *)
| ILit (value : Z).             (* *ast.IntegerLiteral, int64 *)

(** ast/types.go:148-152; [High] nil means a single value. *)
Record irange : Type := mkRange { rlow : integer; rhigh : option integer }.

(** ast/types.go:181-184. *)
Definition intlist := list irange.

(** ast/types.go:202-206; an empty [Scope] means the local struct. *)
Record idref : Type := mkRef { rscope : string; rname : string }.

(** ast/types.go:193-200: [LengthConstraint] values that exist: [*IDRef] and
    [*Leftover]; nil is represented by [None] where it can occur. *)
Inductive lconstraint : Type :=
| LRef (r : idref)
| LLeftover (num : integer).

(** ast/types.go:71-115. *)
Inductive type : Type :=
| TInt (size : Z) (cst : option intlist)                (* *ast.IntType *)
| TChar                                                 (* *ast.CharType *)
| TPtr                                                  (* *ast.Ptr *)
| TNul                                                  (* *ast.NulTermString *)
| TStruct (name : string)                               (* *ast.StructRef *)
| TFixed (base : type) (size : integer)                 (* *ast.FixedArrayMember *)
| TVar (base : type) (cst : option lconstraint).        (* *ast.VarArrayMember *)

(** ast/types.go:48-66, 117-130. *)
Inductive member : Type :=
| MField (name : string) (t : type)                     (* *ast.Field *)
| MUnion (name : string) (tag : idref) (len : option lconstraint)
         (cases : list ucase)                           (* *ast.UnionMember *)
| MEOS                                                  (* *ast.EOS *)
| MFail                                                 (* *ast.Fail *)
| MIgnore                                               (* *ast.Ignore *)
with ucase : Type :=
| UCase (case : option intlist) (members : list member). (* *ast.UnionCase; None = default *)

Definition ucase_list (c : ucase) : option intlist := let '(UCase l _) := c in l.
Definition ucase_members (c : ucase) : list member := let '(UCase _ ms) := c in ms.

(** ast/types.go:15-19. *)
Record constant : Type := mkConst { kname : string; kvalue : Z }.

(** ast/types.go:21-25 with [*Field] members. *)
Record context : Type := mkCtx { cname : string; cmembers : list (string * type) }.

(** ast/types.go:27-32; [smembers = None] is an extern struct (nil). *)
Record struct : Type := mkStruct { sname : string; scontexts : list string; smembers : option (list member) }.

(** ast/types.go:34-37. *)
Definition Extern (s : struct) : bool :=
  match smembers s with None => true | Some _ => false end.

(** [s.Members] seen as a list ([range] over nil does nothing). *)
Definition members_of (s : struct) : list member :=
  match smembers s with None => [] | Some ms => ms end.

(** ast/types.go:39-43. *)
Record pragma : Type := mkPragma { ptype : string; poptions : list string }.

(** ast/types.go:4-10. *)
Record file : Type := mkFile {
  fconstants : list constant;
  fcontexts : list context;
  fstructs : list struct;
  fpragmas : list pragma }.

(** Induction principle that goes through the nested lists. *)
Section MemberInd.
  Variable P : member -> Prop.
  Hypothesis Hfield : forall n t, P (MField n t).
  Hypothesis Hunion : forall n tag len cs,
    Forall (fun c => Forall P (ucase_members c)) cs -> P (MUnion n tag len cs).
  Hypothesis Heos : P MEOS.
  Hypothesis Hfail : P MFail.
  Hypothesis Hignore : P MIgnore.

  Fixpoint member_ind' (m : member) : P m :=
    match m with
    | MField n t => Hfield n t
    | MUnion n tag len cs =>
        Hunion n tag len cs
          ((fix go (cs : list ucase) : Forall (fun c => Forall P (ucase_members c)) cs :=
              match cs with
              | [] => Forall_nil _
              | c :: cs' =>
                  Forall_cons c
                    (match c return Forall P (ucase_members c) with
                     | UCase _ ms =>
                         (fix gom (ms : list member) : Forall P ms :=
                            match ms with
                            | [] => Forall_nil _
                            | m' :: ms' => Forall_cons m' (member_ind' m') (gom ms')
                            end) ms
                     end) (go cs')
              end) cs)
    | MEOS => Heos
    | MFail => Hfail
    | MIgnore => Hignore
    end.
End MemberInd.
