(** Renaming of everything that has a name in trunnel source: structs, fields,
    contexts and their fields, constants, unions. *)
From Coq Require Import ZArith String List Bool.
From Verif Require Import Base Ast GoLang.
Import ListNotations.
Open Scope string_scope.
Open Scope list_scope.
Open Scope Z_scope.

(** The new name of each thing.  Fields may be renamed differently in every
    struct and context. *)
Record naming : Type := mkNaming {
  toStruct : string -> string;
  toContext : string -> string;
  toConstant : string -> string;
  toUnion : string -> string;
  toField : string -> string -> string;      (* in the struct of that name *)
  toCtxField : string -> string -> string }. (* in the context of that name *)

Section Rename.
Variable v : naming.
Definition renInt (i : integer) : integer := match i with IConst n => IConst (toConstant v n) | ILit z => ILit z end.
Definition renRange (g : irange) : irange := mkRange (renInt (rlow g)) (option_map renInt (rhigh g)).
Definition renList (l : intlist) : intlist := map renRange l.

Section Fields.
Variable phi : string -> string.   (* fields of the struct at hand *)
Definition renRef (f : idref) : idref :=
  if String.eqb (rscope f) "" then mkRef "" (phi (rname f))
  else mkRef (toContext v (rscope f)) (toCtxField v (rscope f) (rname f)).
Definition renLength (c : lconstraint) : lconstraint :=
  match c with LRef f => LRef (renRef f) | LLeftover i => LLeftover (renInt i) end.
Fixpoint renType (t : type) : type :=
  match t with
  | TInt sz o => TInt sz (option_map renList o)
  | TChar => TChar
  | TPtr => TPtr
  | TNul => TNul
  | TStruct n => TStruct (toStruct v n)
  | TFixed b i => TFixed (renType b) (renInt i)
  | TVar b c => TVar (renType b) (option_map renLength c)
  end.
Fixpoint renMember (m : member) : member :=
  match m with
  | MField n t => MField (phi n) (renType t)
  | MUnion u tag len cs =>
      MUnion (toUnion v u) (renRef tag) (option_map renLength len)
        (map (fun c => match c with UCase l ms => UCase (option_map renList l) (map renMember ms) end) cs)
  | MEOS => MEOS
  | MFail => MFail
  | MIgnore => MIgnore
  end.
Definition renCase (c : ucase) : ucase := UCase (option_map renList (ucase_list c)) (map renMember (ucase_members c)).
End Fields.

Definition renStruct (s : struct) : struct :=
  mkStruct (toStruct v (sname s)) (map (toContext v) (scontexts s)) (option_map (map (renMember (toField v (sname s)))) (smembers s)).
Definition renContext (c : context) : context :=
  mkCtx (toContext v (cname c))
        (map (fun f => (toCtxField v (cname c) (fst f), renType (fun n => n) (snd f))) (cmembers c)).
Definition renConstant (c : constant) : constant := mkConst (toConstant v (kname c)) (kvalue c).
Definition renFile (f : file) : file :=
  mkFile (map renConstant (fconstants f)) (map renContext (fcontexts f)) (map renStruct (fstructs f)) (fpragmas f).
End Rename.

(** A Go value without the names of types and fields. *)
Fixpoint bare (v : value) : value :=
  match v with
  | VList l => VList (map bare l)
  | VStruct _ fs => VStruct "" (map (fun kv => ("", bare (snd kv))) fs)
  | _ => v
  end.
Definition bares (fs : amap value) : list value := map (fun kv => bare (snd kv)) fs.
