(** Rendering of the Go fragment to text, as gen/decl.go prints it (decl.go and
    printer.go:27-33), with the one change gofmt makes to the tokens: doubled
    parentheses become single ones.  Only used to compare the model's output
    with the repository's golden files; white space is not reproduced. *)
From Coq Require Import ZArith String Ascii List Bool.
From Coq Require Import DecimalString.
From Verif Require Import Base Ast InspectModel GoLang GenModel.
Import ListNotations.
Open Scope string_scope.
Open Scope list_scope.
Open Scope Z_scope.

(** [strconv.FormatInt(x, 10)]. *)
Definition showZ (z : Z) : string := NilEmpty.string_of_int (Z.to_int z).

Definition cat (l : list string) : string := String.concat "" l.

Fixpoint showType (t : gtype) : string :=
  match t with
  | GUint b => cat ["uint"; showZ b]
  | GByte => "byte"
  | GInt => "int"
  | GString => "string"
  | GError => "error"
  | GPtr n => cat ["*"; n]
  | GArray n t' => cat ["["; showZ n; "]"; showType t']
  | GSlice t' => cat ["[]"; showType t']
  end.

Definition showOp (o : binop) : string :=
  match o with
  | BEq => "==" | BLe => "<=" | BLt => "<" | BGt => ">"
  | BAnd => "&&" | BOr => "||" | BAdd => "+" | BSub => "-"
  end.

Definition quote : string := String (ascii_of_nat 34) EmptyString.

Fixpoint showExpr (e : expr) : string :=
  match e with
  | EInt z => showZ z
  | EVar x => x
  | ESel a f => cat [showExpr a; "."; f]
  | EIdx a i => cat [showExpr a; "["; showExpr i; "]"]
  | ELen a => cat ["len("; showExpr a; ")"]
  | EToInt a => cat ["int("; showExpr a; ")"]
  | EBin o a b => cat [showExpr a; showOp o; showExpr b]
  | ENot a => cat ["!"; showExpr a]
  | EParen (EParen a) => cat ["("; showExpr a; ")"]
  | EParen a => cat ["("; showExpr a; ")"]
  | ENotNil a => cat [showExpr a; "!=nil"]
  | EFrom a i => cat [showExpr a; "["; showExpr i; ":]"]
  | ETo a i => cat [showExpr a; "[:"; showExpr i; "]"]
  | EBigEndian b a => cat ["binary.BigEndian.Uint"; showZ b; "("; showExpr a; ")"]
  | EIndexByte a z => cat ["bytes.IndexByte("; showExpr a; ","; showZ z; ")"]
  | EStringOf a => cat ["string("; showExpr a; ")"]
  | EEmptyBytes => "[]byte{}"
  | EMake t n => cat ["make([]"; showType t; ","; showExpr n; ")"]
  | ENew n => cat ["new("; n; ")"]
  | EAppend a b => cat ["append("; showExpr a; ","; showExpr b; ")"]
  | ENil => "nil"
  | EError m => cat ["errors.New("; quote; m; quote; ")"]
  | EBlank => ""
  end.

Definition showArgs (l : list expr) : string := cat (map (fun a => cat [","; showExpr a]) l).

Fixpoint showStmt (s : stmt) : string :=
  let block (b : list stmt) := cat ["{"; cat (map showStmt b); "}"] in
  match s with
  | SDecl x e => cat [x; ":="; showExpr e]
  | SVar x t => cat ["var"; x; showType t]
  | SAssign l e => cat [showExpr (lexpr l); "="; showExpr e]
  | SAssign2 l1 l2 a b =>
      cat [showExpr (lexpr l1); ","; showExpr (lexpr l2); "="; showExpr a; ","; showExpr b]
  | SIf c b => cat ["if"; showExpr c; block b]
  | SBlock b => block b
  | SForLt x n b => cat ["for"; x; ":=0;"; x; "<"; showExpr n; ";"; x; "++"; block b]
  | SWhile c b => cat ["for"; showExpr c; block b]
  | SSwitch cs =>
      cat ["switch{";
           cat (map (fun c => cat [match fst c with None => "default:" | Some e => cat ["case"; showExpr e; ":"] end;
                                   cat (map showStmt (snd c))]) cs); "}"]
  | SReturn a b => cat ["return"; showExpr a; ","; showExpr b]
  | SParse x err o a args =>
      cat [x; ","; err; "="; showExpr (lexpr o); ".Parse("; showExpr a; showArgs args; ")"]
  | SParseDecl err o a args =>
      cat ["_,"; err; ":="; showExpr (lexpr o); ".Parse("; showExpr a; showArgs args; ")"]
  end.

Definition showTypeDecl (n : string) (fs : list (string * gtype)) : string :=
  cat ["type"; n; "struct{"; cat (map (fun f => cat [fst f; showType (snd f)]) fs); "}"].

(** decl.go:360-366 [contextSignature]. *)
Definition showSig (camel : string -> string) (ns : list string) : string :=
  cat (map (fun n => cat [","; n; camel n]) ns).

Definition showMethod (camel : string -> string) (ty : string) (f : func) : string :=
  cat ["func("; frecv f; "*"; ty; ")Parse(data[]byte"; showSig camel (fparams f); ")([]byte,error){";
       cat (map showStmt (fbody f)); "}"].

Definition showCtor (camel : string -> string) (ty : string) (f : func) : string :=
  cat ["funcParse"; ty; "(data[]byte"; showSig camel (fparams f); ")(*"; ty; ",error){";
       cat (map showStmt (fbody f)); "}"].

(** decl.go:51-83: contexts, then structs, of one file. *)
Definition showFile (camel : string -> string) (r : resolver) (f : file) : outcome string :=
  cs <- mapM (contextDecl camel r) (fcontexts f) ;;
  ss <- mapM (structureDecl camel r) (definedStructs [f]) ;;
  Ok (cat (map (fun c => showTypeDecl (fst c) (snd c)) cs ++
           map (fun x => let '(n, d, m, c) := x in
                  cat [showTypeDecl n d; showMethod camel n m; showCtor camel n c]) ss)).

(** Text without white space. *)
Fixpoint strip (s : string) : string :=
  match s with
  | EmptyString => EmptyString
  | String c s' =>
      let k := nat_of_ascii c in
      if (Nat.eqb k 32 || Nat.eqb k 9 || Nat.eqb k 10 || Nat.eqb k 13)%bool then strip s'
      else String c (strip s')
  end.

(** From the first type declaration on (after package clause and imports). *)
Fixpoint fromType (s : string) : string :=
  match s with
  | EmptyString => EmptyString
  | String _ s' => if String.prefix "type" s then s else fromType s'
  end.

(** A concrete [name]: split at underscores, capitalise each word
    (initialisms, which [snaker] writes in capitals, are left out). *)
Definition upperAscii (c : ascii) : ascii :=
  let k := nat_of_ascii c in
  if (Nat.leb 97 k && Nat.leb k 122)%bool then ascii_of_nat (k - 32) else c.
Fixpoint camelFrom (start : bool) (s : string) : string :=
  match s with
  | EmptyString => EmptyString
  | String c s' =>
      if Ascii.eqb c "_"%char then camelFrom true s'
      else String (if start then upperAscii c else lowerAscii c) (camelFrom false s')
  end.
Definition simpleCamel (s : string) : string := camelFrom true s.
