(** Go's static rules for the fragment of GoLang.v, as a checker.
    This file describes Go, not trunnel: names are resolved through nested
    scopes, nothing is declared twice in one scope, every local variable is
    used, operands have the right types, constants fit the type they are
    compared with, functions end in a return.  Left out: unused imports
    (the generator's import pass adds exactly those in use) and limits on the
    size of array types. *)
From Coq Require Import ZArith String Ascii List Bool.
From Verif Require Import Base GoLang.
Import ListNotations.
Open Scope string_scope.
Open Scope list_scope.
Open Scope Z_scope.

Definition inb (x : string) (l : list string) : bool := existsb (String.eqb x) l.
Fixpoint distinct (l : list string) : bool :=
  match l with [] => true | x :: l' => negb (inb x l') && distinct l' end.

(** Identifiers. *)
Definition keywords : list string :=
  ["break"; "default"; "func"; "interface"; "select"; "case"; "defer"; "go"; "map"; "struct"; "chan"; "else";
   "goto"; "package"; "switch"; "const"; "fallthrough"; "if"; "range"; "type"; "continue"; "for"; "import";
   "return"; "var"].
Definition isLetter (c : ascii) : bool :=
  let k := nat_of_ascii c in
  (Nat.leb 65 k && Nat.leb k 90 || Nat.leb 97 k && Nat.leb k 122 || Nat.eqb k 95)%bool.
Definition isDigit (c : ascii) : bool :=
  let k := nat_of_ascii c in (Nat.leb 48 k && Nat.leb k 57)%bool.
Fixpoint identTail (s : string) : bool :=
  match s with EmptyString => true | String c s' => (isLetter c || isDigit c) && identTail s' end.
(** An identifier other than the blank one. *)
Definition goName (s : string) : bool :=
  match s with
  | EmptyString => false
  | String c s' => isLetter c && identTail s' && negb (inb s keywords) && negb (String.eqb s "_")
  end.

(** Types of expressions: a type of the fragment, a struct passed by value, a
    boolean, an integer constant without a type, [nil]. *)
Inductive ty : Type :=
| Tg (g : gtype)
| Tstruct (n : string)
| Tbool
| Tconst (z : Z)
| Tnil.

(** [byte] is another name of [uint8]. *)
Fixpoint norm (g : gtype) : gtype :=
  match g with
  | GByte => GUint 8
  | GArray n h => GArray n (norm h)
  | GSlice h => GSlice (norm h)
  | _ => g
  end.
Fixpoint geqb (a b : gtype) : bool :=
  match a, b with
  | GUint m, GUint n => m =? n
  | GByte, GByte | GInt, GInt | GString, GString | GError, GError => true
  | GPtr m, GPtr n => String.eqb m n
  | GArray m a', GArray n b' => (m =? n) && geqb a' b'
  | GSlice a', GSlice b' => geqb a' b'
  | _, _ => false
  end.
Definition sameG (a b : gtype) : bool := geqb (norm a) (norm b).

Definition isInt (g : gtype) : bool :=
  match g with GUint _ | GByte | GInt => true | _ => false end.
(** The constant [z] is a value of the type. *)
Definition inRange (g : gtype) (z : Z) : bool :=
  match g with
  | GUint b => (0 <=? z) && (z <? 2 ^ b)
  | GByte => (0 <=? z) && (z <? 256)
  | GInt => (- two63 <=? z) && (z <? two63)
  | _ => false
  end.
Definition nilable (g : gtype) : bool :=
  match g with GError | GPtr _ | GSlice _ => true | _ => false end.
(** An expression of type [t] can be assigned to a place of type [g]. *)
Definition assignable (t : ty) (g : gtype) : bool :=
  match t with
  | Tg h => sameG h g
  | Tconst z => inRange g z
  | Tnil => nilable g
  | Tstruct _ | Tbool => false
  end.
Definition goBytesT : gtype := GSlice GByte.

(** Both operands of an arithmetic or comparison operator: the common type. *)
Definition common (a b : ty) : option gtype :=
  match a, b with
  | Tg g, Tg h => if isInt g && sameG g h then Some g else None
  | Tg g, Tconst z | Tconst z, Tg g => if inRange g z then Some g else None
  | _, _ => None
  end.
(** An index, slice bound or length. *)
Definition indexable (t : ty) : bool :=
  match t with Tg g => isInt g | Tconst z => (0 <=? z) && (z <? two63) | _ => false end.

Definition scope := list (string * ty).
Definition scopes := list scope.
Fixpoint lookupS (x : string) (G : scopes) : option ty :=
  match G with
  | [] => None
  | sc :: G' => match alookup x sc with Some t => Some t | None => lookupS x G' end
  end.

Section Check.
Variable camel : string -> string.                    (* type name of a context parameter *)
Variable types : amap (list (string * gtype)).        (* struct types of the package *)
Variable methods : amap func.                         (* Parse methods, by type *)
Variable pkg : list string.                           (* names declared in the package *)

(** [x] means what it means in Go's universe, or an imported package. *)
Definition builtin (G : scopes) (x : string) : bool :=
  negb (inb x pkg) && match lookupS x G with None => true | Some _ => false end.

(** The identifier a type is written with. *)
Fixpoint typeOk (G : scopes) (g : gtype) : bool :=
  match g with
  | GUint b =>
      if b =? 8 then builtin G "uint8" else if b =? 16 then builtin G "uint16" else
      if b =? 32 then builtin G "uint32" else if b =? 64 then builtin G "uint64" else false
  | GByte => builtin G "byte"
  | GInt => builtin G "int"
  | GString => builtin G "string"
  | GError => builtin G "error"
  | GPtr n => match alookup n types, lookupS n G with Some _, None => true | _, _ => false end
  | GArray n h => (0 <=? n) && (n <? two63) && typeOk G h
  | GSlice h => typeOk G h
  end.

Definition isBytes (t : ty) : bool := assignable t goBytesT && negb (match t with Tnil => true | _ => false end).

Fixpoint typeE (G : scopes) (e : expr) : option ty :=
  match e with
  | EInt z => Some (Tconst z)
  | EVar x => if String.eqb x "_" then None else lookupS x G
  | ESel a f =>
      match typeE G a with
      | Some (Tg (GPtr n)) | Some (Tstruct n) =>
          match alookup n types with
          | Some fs => match alookup f fs with Some g => Some (Tg g) | None => None end
          | None => None
          end
      | _ => None
      end
  | EIdx a i =>
      match typeE G a, typeE G i with
      | Some (Tg (GSlice g)), Some t => if indexable t then Some (Tg g) else None
      | Some (Tg (GArray n g)), Some (Tconst z) => if (0 <=? z) && (z <? n) then Some (Tg g) else None
      | Some (Tg (GArray n g)), Some t => if indexable t then Some (Tg g) else None
      | _, _ => None
      end
  | ELen a =>
      match typeE G a with
      | Some (Tg (GSlice _)) => if builtin G "len" then Some (Tg GInt) else None
      | _ => None
      end
  | EToInt a =>
      match typeE G a with
      | Some (Tg g) => if isInt g && builtin G "int" then Some (Tg GInt) else None
      | _ => None
      end
  | EBin BAnd a b | EBin BOr a b =>
      match typeE G a, typeE G b with Some Tbool, Some Tbool => Some Tbool | _, _ => None end
  | EBin BAdd a b | EBin BSub a b =>
      match typeE G a, typeE G b with
      | Some s, Some t => match common s t with Some g => Some (Tg g) | None => None end
      | _, _ => None
      end
  | EBin _ a b =>
      match typeE G a, typeE G b with
      | Some s, Some t => match common s t with Some _ => Some Tbool | None => None end
      | _, _ => None
      end
  | ENot a => match typeE G a with Some Tbool => Some Tbool | _ => None end
  | EParen a => typeE G a
  | ENotNil a =>
      match typeE G a with
      | Some (Tg g) => if nilable g && builtin G "nil" then Some Tbool else None
      | _ => None
      end
  | EFrom a i | ETo a i =>
      match typeE G a, typeE G i with
      | Some (Tg (GSlice g)), Some t => if indexable t then Some (Tg (GSlice g)) else None
      | _, _ => None
      end
  | EBigEndian bits a =>
      match typeE G a with
      | Some t =>
          if isBytes t && builtin G "binary" && ((bits =? 16) || (bits =? 32) || (bits =? 64))
          then Some (Tg (GUint bits)) else None
      | None => None
      end
  | EIndexByte a z =>
      match typeE G a with
      | Some t => if isBytes t && builtin G "bytes" && inRange GByte z then Some (Tg GInt) else None
      | None => None
      end
  | EStringOf a =>
      match typeE G a with
      | Some t => if isBytes t && builtin G "string" then Some (Tg GString) else None
      | None => None
      end
  | EEmptyBytes => if builtin G "byte" then Some (Tg goBytesT) else None
  | EMake g n =>
      match typeE G n with
      | Some t => if indexable t && builtin G "make" && typeOk G g then Some (Tg (GSlice g)) else None
      | None => None
      end
  | ENew n => if builtin G "new" && typeOk G (GPtr n) then Some (Tg (GPtr n)) else None
  | EAppend a b =>
      match typeE G a, typeE G b with
      | Some (Tg (GSlice g)), Some t => if assignable t g && builtin G "append" then Some (Tg (GSlice g)) else None
      | _, _ => None
      end
  | ENil => if builtin G "nil" then Some Tnil else None
  | EError _ => if builtin G "errors" then Some (Tg GError) else None
  | EBlank => None
  end.

(** [e] can be assigned to a place of type [g]. *)
Definition fits (G : scopes) (e : expr) (g : gtype) : bool :=
  match typeE G e with Some t => assignable t g | None => false end.
(** The type of a place. *)
Definition placeOf (G : scopes) (l : lval) : option gtype :=
  match typeE G (lexpr l) with Some (Tg g) => Some g | _ => None end.
Definition assigns (G : scopes) (l : lval) (e : expr) : bool :=
  match placeOf G l with Some g => fits G e g | None => false end.

(** Uses of a variable: any occurrence that is not just an assignment to it, up
    to a declaration of the same name. *)
Fixpoint usesE (x : string) (e : expr) : bool :=
  match e with
  | EVar y => String.eqb x y
  | EInt _ | EEmptyBytes | ENew _ | ENil | EError _ | EBlank => false
  | ESel a _ | ELen a | EToInt a | ENot a | EParen a | ENotNil a | EBigEndian _ a | EIndexByte a _ | EStringOf a
  | EMake _ a => usesE x a
  | EIdx a b | EBin _ a b | EFrom a b | ETo a b | EAppend a b => usesE x a || usesE x b
  end.
Definition usesL (x : string) (l : lval) : bool :=
  match l with LVar _ => false | _ => usesE x (lexpr l) end.
Fixpoint usesS (x : string) (s : stmt) {struct s} : bool :=
  let usesSs := fix usesSs (ss : list stmt) : bool :=
    match ss with
    | [] => false
    | s1 :: ss' =>
        usesS x s1 ||
        match s1 with
        | SDecl y _ | SVar y _ | SParseDecl y _ _ _ => if String.eqb x y then false else usesSs ss'
        | _ => usesSs ss'
        end
    end in
  match s with
  | SDecl _ e => usesE x e
  | SVar _ _ => false
  | SAssign l e => usesL x l || usesE x e
  | SAssign2 l1 l2 a b => usesL x l1 || usesL x l2 || usesE x a || usesE x b
  | SIf c b | SWhile c b => usesE x c || usesSs b
  | SBlock b => usesSs b
  | SForLt y n b => if String.eqb x y then false else usesE x n || usesSs b
  | SSwitch cs => existsb (fun c => match fst c with Some e => usesE x e | None => false end || usesSs (snd c)) cs
  | SReturn a b => usesE x a || usesE x b
  | SParse _ _ o a args | SParseDecl _ o a args => usesE x (lexpr o) || usesE x a || existsb (usesE x) args
  end.
Fixpoint usesSs (x : string) (ss : list stmt) : bool :=
  match ss with
  | [] => false
  | s1 :: ss' =>
      usesS x s1 ||
      match s1 with
      | SDecl y _ | SVar y _ | SParseDecl y _ _ _ => if String.eqb x y then false else usesSs x ss'
      | _ => usesSs x ss'
      end
  end.

(** Declare a variable in the innermost scope, where it must be new. *)
Definition declare (x : string) (t : ty) (G : scopes) : option scopes :=
  match G with
  | sc :: G' =>
      if goName x && match alookup x sc with None => true | Some _ => false end then Some (((x, t) :: sc) :: G') else None
  | [] => None
  end.

(** The method called by [o.Parse(a, args...)], on arguments of the right types. *)
Definition callOk (G : scopes) (o : lval) (a : expr) (args : list expr) : bool :=
  match typeE G (lexpr o) with
  | Some (Tg (GPtr n)) =>
      match alookup n methods with
      | Some f =>
          fits G a goBytesT && Nat.eqb (List.length args) (List.length (fparams f)) &&
          forallb (fun ap => match typeE G (fst ap) with Some (Tstruct m) => String.eqb m (camel (snd ap)) | _ => false end)
                  (combine args (fparams f))
      | None => false
      end
  | _ => false
  end.

Definition atMostOneDefault (cs : list (option expr * list stmt)) : bool :=
  Nat.leb (List.length (filter (fun c => match fst c with None => true | Some _ => false end) cs)) 1.

Variable results : gtype * gtype.                     (* result types of the function *)

(** A statement in the scopes [G]: the scopes after it. *)
Fixpoint checkS (G : scopes) (s : stmt) {struct s} : option scopes :=
  let checkSs := fix checkSs (G : scopes) (ss : list stmt) : option scopes :=
    match ss with
    | [] => Some G
    | s1 :: ss' =>
        match checkS G s1 with
        | Some G1 =>
            if match s1 with SDecl y _ | SVar y _ | SParseDecl y _ _ _ => usesSs y ss' | _ => true end
            then checkSs G1 ss' else None
        | None => None
        end
    end in
  let block (G : scopes) (b : list stmt) : bool := match checkSs ([] :: G) b with Some _ => true | None => false end in
  let ok (b : bool) := if b then Some G else None in
  match s with
  | SDecl x e => match typeE G e with Some (Tg g) => declare x (Tg g) G | _ => None end
  | SVar x t => if typeOk G t then declare x (Tg t) G else None
  | SAssign l e => ok (assigns G l e)
  | SAssign2 l1 l2 a b => ok (assigns G l1 a && assigns G l2 b)
  | SIf c b => ok (match typeE G c with Some Tbool => block G b | _ => false end)
  | SBlock b => ok (block G b)
  | SForLt x n b =>
      ok (goName x &&
          let G1 := [(x, Tg GInt)] :: G in
          match typeE G1 (EBin BLt (EVar x) n) with Some Tbool => block G1 b | _ => false end)
  | SWhile c b => ok (match typeE G c with Some Tbool => block G b | _ => false end)
  | SSwitch cs =>
      ok (atMostOneDefault cs &&
          forallb (fun c => match fst c with
                            | None => true
                            | Some e => match typeE G e with Some Tbool => true | _ => false end
                            end && block G (snd c)) cs)
  | SReturn a b => ok (fits G a (fst results) && fits G b (snd results))
  | SParse x err o a args =>
      ok (callOk G o a args &&
          match placeOf G (LVar x), placeOf G (LVar err) with
          | Some g, Some h => sameG g goBytesT && sameG h GError
          | _, _ => false
          end)
  | SParseDecl err o a args => if callOk G o a args then declare err (Tg GError) G else None
  end.
Fixpoint checkSs (G : scopes) (ss : list stmt) : option scopes :=
  match ss with
  | [] => Some G
  | s1 :: ss' =>
      match checkS G s1 with
      | Some G1 =>
          if match s1 with SDecl y _ | SVar y _ | SParseDecl y _ _ _ => usesSs y ss' | _ => true end
          then checkSs G1 ss' else None
      | None => None
      end
  end.
End Check.

(** A function with parameters and body; [extra] is the receiver, if any. *)
Definition endsInReturn (ss : list stmt) : bool :=
  match rev ss with SReturn _ _ :: _ => true | _ => false end.

Section Package.
Variable camel : string -> string.
Variable p : program.

(** Everything declared at package level. *)
Definition packageNames : list string :=
  map fst (ptypes p) ++ map (fun f => ("Parse" ++ fst f)%string) (pctors p).

Definition funcOk (extra : scope) (f : func) (results : gtype * gtype) : bool :=
  let params := ("data", Tg goBytesT) :: map (fun x => (x, Tstruct (camel x))) (fparams f) in
  distinct (map fst (extra ++ params)) && forallb goName (map fst (extra ++ params)) &&
  forallb (fun x => match alookup (camel x) (ptypes p) with Some _ => true | None => false end) (fparams f) &&
  forallb (typeOk (ptypes p) packageNames []) [goBytesT; fst results; snd results] &&
  endsInReturn (fbody f) &&
  match checkSs camel (ptypes p) (pmethods p) packageNames results [extra ++ params] (fbody f) with
  | Some _ => true
  | None => false
  end.

(** A struct type. *)
Definition typeDeclOk (t : string * list (string * gtype)) : bool :=
  distinct (map fst (snd t)) && forallb goName (map fst (snd t)) &&
  forallb (fun f => typeOk (ptypes p) packageNames [] (snd f)) (snd t).

(** A method; its name is not that of a field. *)
Definition methodOk (m : string * func) : bool :=
  match alookup (fst m) (ptypes p) with
  | Some fs => negb (inb "Parse" (map fst fs))
  | None => false
  end &&
  funcOk [(frecv (snd m), Tg (GPtr (fst m)))] (snd m) (goBytesT, GError).

Definition ctorOk (c : string * func) : bool :=
  funcOk [] (snd c) (GPtr (fst c), GError).

(** The package compiles. *)
Definition compiles : bool :=
  distinct packageNames && forallb goName packageNames && distinct (map fst (pmethods p)) &&
  forallb typeDeclOk (ptypes p) && forallb methodOk (pmethods p) && forallb ctorOk (pctors p).
End Package.
