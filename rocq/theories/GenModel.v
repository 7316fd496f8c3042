(** Model of gen/decl.go: the marshaller generator, as a translation from the
    AST to the Go fragment of GoLang.v.  Definitions only.

    The Go code prints text; here each function returns the Go syntax tree of
    the text it prints.  GenPrint.v turns the tree into the text, which is
    compared with the golden files of the repository.  The generator's state
    ([receiver], [data]) becomes a parameter; [g.data] is ["cur"] whenever
    statements are printed. *)
From Coq Require Import ZArith String Ascii List Bool.
From Verif Require Import Base Ast IntervalsModel InspectModel GoLang.
Import ListNotations.
Open Scope string_scope.
Open Scope list_scope.
Open Scope Z_scope.

Definition lowerAscii (c : ascii) : ascii :=
  let k := nat_of_ascii c in
  if (Nat.leb 65 k && Nat.leb k 90)%bool then ascii_of_nat (k + 32) else c.

(** decl.go:76 [strings.ToLower(s.Name[:1])]. *)
Definition receiverName (n : string) : outcome string :=
  match n with
  | EmptyString => Panic "slice bounds out of range"
  | String c _ => Ok (String (lowerAscii c) EmptyString)
  end.

Section Gen.
(** core.go:88-90 [name]: [snaker.SnakeToCamel] of the lower-cased name. *)
Variable camel : string -> string.
Variable r : resolver.

(** decl.go:318-324 [integer]. *)
Definition integerOf (i : integer) : outcome Z :=
  match Integer r i with
  | Ok z => Ok z
  | Err e => Panic e
  | Panic m => Panic m
  | OutOfFuel => OutOfFuel
  end.

(** decl.go:339-358 [tipe]. *)
Fixpoint tipe (t : type) : outcome gtype :=
  match t with
  | TNul => Ok GString
  | TInt sz _ => Ok (GUint sz)
  | TChar => Ok GByte
  | TPtr => Ok GInt
  | TStruct n => Ok (GPtr (camel n))
  | TFixed b s => n <- integerOf s ;; g <- tipe b ;; Ok (GArray n g)
  | TVar b _ => g <- tipe b ;; Ok (GSlice g)
  end.

Definition cur : expr := EVar "cur".
Definition retErr (m : string) : stmt := SReturn ENil (EError m).

(** decl.go:310-312 [lengthCheck]. *)
Definition lengthCheck (min : expr) : stmt :=
  SIf (EBin BLt (ELen cur) min) [retErr "data too short"].

(** decl.go:314-316 [assertEnd]. *)
Definition assertEnd : stmt :=
  SIf (EBin BGt (ELen cur) (EInt 0)) [retErr "trailing data disallowed"].

(** decl.go:326-337 [conditional]: one clause. *)
Definition clauseOf (v : expr) (g : irange) : outcome expr :=
  match rhigh g with
  | None => l <- integerOf (rlow g) ;; Ok (EBin BEq v (EInt l))
  | Some h =>
      l <- integerOf (rlow g) ;; h' <- integerOf h ;;
      Ok (EParen (EBin BAnd (EBin BLe (EInt l) v) (EBin BLe v (EInt h'))))
  end.

(** decl.go:336: clauses joined by "||"; the operator associates to the left. *)
Definition joinOr (cs : list expr) : expr :=
  match cs with
  | [] => EBlank
  | c :: cs' => fold_left (fun a b => EBin BOr a b) cs' c
  end.

(** decl.go:326-337 [conditional]. *)
Definition conditional (v : expr) (l : intlist) : outcome expr :=
  cs <- mapM (clauseOf v) l ;; Ok (joinOr cs).

(** decl.go:204-218 [parseIntType]. *)
Definition parseIntType (lhs : lval) (sz : Z) (cst : option intlist) : outcome (list stmt) :=
  let n := sz / 8 in
  check <- match cst with
           | None => Ok []
           | Some l =>
               c <- conditional (lexpr lhs) l ;;
               Ok [SIf (ENot (EParen c)) [retErr "integer constraint violated"]]
           end ;;
  Ok ([lengthCheck (EInt n);
       if n =? 1 then SAssign lhs (EIdx cur (EInt 0)) else SAssign lhs (EBigEndian sz cur)]
      ++ check ++
      [SAssign (LVar "cur") (EFrom cur (EInt n))]).

(** decl.go:302-308 [ref]; [recv] is the receiver's name. *)
Definition refExpr (recv : string) (f : idref) : expr :=
  if String.eqb (rscope f) "" then ESel (EVar recv) (camel (rname f))
  else ESel (EVar (rscope f)) (camel (rname f)).

(** decl.go:279-300 [constrained]; [body] is what the callback prints. *)
Definition constrained (recv : string) (c : lconstraint) (body : list stmt) : outcome (list stmt) :=
  '(check, n) <- match c with
    | LLeftover i =>
        k <- integerOf i ;; Ok (lengthCheck (EInt k), EBin BSub (ELen cur) (EInt k))
    | LRef f => let n := EToInt (refExpr recv f) in Ok (lengthCheck n, n)
    end ;;
  Ok ([check; SDecl "restore" (EFrom cur n); SAssign (LVar "cur") (ETo cur n)]
      ++ body ++ [assertEnd; SAssign (LVar "cur") (EVar "restore")]).

(** decl.go:167-202 [parseType] and 220-250 [parseArray]. *)
Fixpoint parseType (recv : string) (lhs : lval) (t : type) : outcome (list stmt) :=
  match t with
  | TNul =>
      Ok [SDecl "i" (EIndexByte cur 0);
          SIf (EBin BLt (EVar "i") (EInt 0)) [retErr "could not parse nul-term string"];
          SAssign2 lhs (LVar "cur") (EStringOf (ETo cur (EVar "i")))
                   (EFrom cur (EBin BAdd (EVar "i") (EInt 1)))]
  | TInt sz cst => parseIntType lhs sz cst
  | TChar => parseIntType lhs 8 None
  | TPtr => Ok [SAssign lhs (EBin BSub (ELen (EVar "data")) (ELen cur))]
  | TStruct n =>
      match Struct r n with
      | None => Panic "struct not found"
      | Some s =>
          Ok [SVar "err" GError;
              SAssign lhs (ENew (camel n));
              SParse "cur" "err" lhs cur (map EVar (scontexts s));
              SIf (ENotNil (EVar "err")) [SReturn ENil (EVar "err")]]
      end
  | TFixed b s =>
      n <- integerOf s ;;
      body <- parseType recv (LIdx lhs (EVar "idx")) b ;;
      Ok [SForLt "idx" (EInt n) body]
  | TVar b (Some (LRef f)) =>
      let size := EToInt (refExpr recv f) in
      g <- tipe b ;;
      body <- parseType recv (LIdx lhs (EVar "idx")) b ;;
      Ok [SAssign lhs (EMake g size); SForLt "idx" size body]
  | TVar b None =>
      g <- tipe b ;;
      body <- parseType recv (LVar "tmp") b ;;
      Ok [SAssign lhs (EMake g (EInt 0));
          SWhile (EBin BGt (ELen cur) (EInt 0))
            ([SVar "tmp" g] ++ body ++ [SAssign lhs (EAppend (lexpr lhs) (EVar "tmp"))])]
  | TVar b (Some (LLeftover k)) =>
      g <- tipe b ;;
      body <- parseType recv (LVar "tmp") b ;;
      constrained recv (LLeftover k)
        [SAssign lhs (EMake g (EInt 0));
         SWhile (EBin BGt (ELen cur) (EInt 0))
           ([SVar "tmp" g] ++ body ++ [SAssign lhs (EAppend (lexpr lhs) (EVar "tmp"))])]
  end.

(** decl.go:142-165 [parseMember] and 252-277 [parseUnionMember]. *)
Fixpoint parseMember (recv : string) (m : member) {struct m} : outcome stmt :=
  let parseMembers := fix parseMembers (ms : list member) : outcome (list stmt) :=
    match ms with
    | [] => Ok []
    | m :: ms' => s <- parseMember recv m ;; ss <- parseMembers ms' ;; Ok (s :: ss)
    end in
  match m with
  | MField n t => b <- parseType recv (LField (LVar recv) (camel n)) t ;; Ok (SBlock b)
  | MUnion _ tag len cs =>
      cases <- (fix parseCases (cs : list ucase) : outcome (list (option expr * list stmt)) :=
        match cs with
        | [] => Ok []
        | UCase None ms :: cs' =>
            b <- parseMembers ms ;; rest <- parseCases cs' ;; Ok ((None, b) :: rest)
        | UCase (Some l) ms :: cs' =>
            c <- conditional (refExpr recv tag) l ;;
            b <- parseMembers ms ;; rest <- parseCases cs' ;; Ok ((Some c, b) :: rest)
        end) cs ;;
      match len with
      | None => Ok (SBlock [SSwitch cases])
      | Some c => b <- constrained recv c [SSwitch cases] ;; Ok (SBlock b)
      end
  | MEOS => Ok (SBlock [assertEnd])
  | MIgnore => Ok (SBlock [SAssign (LVar "cur") EEmptyBytes])
  | MFail => Ok (SBlock [retErr "disallowed case"])
  end.

(** decl.go:93-117 [structMemberDecl] and [structUnionMemberDecl]. *)
Fixpoint memberDecl (m : member) {struct m} : outcome (list (string * gtype)) :=
  match m with
  | MField n t => g <- tipe t ;; Ok [(camel n, g)]
  | MUnion _ _ _ cs =>
      (fix casesDecl (cs : list ucase) : outcome (list (string * gtype)) :=
        match cs with
        | [] => Ok []
        | UCase _ ms :: cs' =>
            d <- (fix membersDecl (ms : list member) : outcome (list (string * gtype)) :=
                   match ms with
                   | [] => Ok []
                   | MFail :: ms' | MIgnore :: ms' => membersDecl ms'
                   | m :: ms' => a <- memberDecl m ;; b <- membersDecl ms' ;; Ok (a ++ b)
                   end) ms ;;
            rest <- casesDecl cs' ;; Ok (d ++ rest)
        end) cs
  | MEOS => Ok []
  | MFail | MIgnore => Panic "unexpected type"
  end.

(** decl.go:85-91 [structDecl]. *)
Definition structDecl (s : struct) : outcome (list (string * gtype)) :=
  ds <- mapM memberDecl (members_of s) ;; Ok (concat ds).

(** decl.go:63-69 [context]. *)
Definition contextDecl (c : context) : outcome (string * list (string * gtype)) :=
  fs <- mapM (fun f => g <- tipe (snd f) ;; Ok (camel (fst f), g)) (cmembers c) ;;
  Ok (camel (cname c), fs).

(** decl.go:129-140 [parse]. *)
Definition parseFunc (s : struct) : outcome func :=
  recv <- receiverName (sname s) ;;
  ms <- mapM (parseMember recv) (members_of s) ;;
  Ok (mkFunc recv (scontexts s)
        ([SDecl "cur" (EVar "data")] ++ ms ++ [SReturn cur ENil])).

(** decl.go:119-127 [parseConstructor]. *)
Definition ctorFunc (s : struct) : outcome func :=
  recv <- receiverName (sname s) ;;
  Ok (mkFunc "" (scontexts s)
        [SDecl recv (ENew (camel (sname s)));
         SParseDecl "err" (LVar recv) (EVar "data") (map EVar (scontexts s));
         SIf (ENotNil (EVar "err")) [SReturn ENil (EVar "err")];
         SReturn (EVar recv) ENil]).

(** decl.go:71-83 [structure], for a struct that is not extern. *)
Definition structureDecl (s : struct) : outcome (string * list (string * gtype) * func * func) :=
  d <- structDecl s ;; f <- parseFunc s ;; c <- ctorFunc s ;; Ok (camel (sname s), d, f, c).

Definition definedStructs (fs : list file) : list struct :=
  filter (fun s => negb (Extern s)) (flat_map fstructs fs).

(** decl.go:30-61 [files] and [file]; the declarations are grouped by kind
    (their order in a Go file has no meaning). *)
Definition genProgram (fs : list file) : outcome program :=
  cs <- mapM contextDecl (flat_map fcontexts fs) ;;
  ss <- mapM structureDecl (definedStructs fs) ;;
  Ok (mkProg (cs ++ map (fun x => let '(n, d, _, _) := x in (n, d)) ss)
             (map (fun x => let '(n, _, f, _) := x in (n, f)) ss)
             (map (fun x => let '(n, _, _, c) := x in (n, c)) ss)).
End Gen.

(** decl.go:12-19 [Marshallers], up to formatting: resolve, then generate. *)
Definition Marshallers (camel : string -> string) (os : nat -> orders) (fs : list file)
  : outcome program :=
  r <- NewResolverFiles os fs ;; genProgram camel r fs.
