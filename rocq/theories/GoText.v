(** How Go reads the text of a source file: tokens, syntax, and the meaning of
    the part of the language that is described by GoLang.v.
    This file describes Go, not trunnel.

    After "The Go Programming Language Specification", sections Lexical elements,
    Types, Expressions, Statements, Declarations and scope.  Left out: general
    comments, runes and raw strings, escapes in strings, floating-point, octal and
    binary literals, letters outside of ASCII, "...", parenthesised types,
    map/chan/func/interface types, else, labels, go, defer, const, renamed imports and type
    parameters.  That imported paths exist is not checked.  Text that uses them is not read. *)
From Coq Require Import ZArith String Ascii List Bool DecimalString.
From Verif Require Import Base GoLang GoTypes.
Import ListNotations.
Open Scope string_scope.
Open Scope list_scope.
Open Scope Z_scope.

(** * Tokens *)

Inductive token : Type :=
| tkId (x : string)        (* identifier *)
| tkKey (x : string)       (* keyword *)
| tkNum (x : string)       (* number, as written *)
| tkStr (x : string)       (* interpreted string literal, without the quotes *)
| tkOp (x : string)        (* operator or punctuation *)
| tkBad.                   (* anything else *)

Definition operators : list string :=
  ["+"; "&"; "+="; "&="; "&&"; "=="; "!="; "("; ")"; "-"; "|"; "-="; "|="; "||"; "<"; "<="; "["; "]";
   "*"; "^"; "*="; "^="; "<-"; ">"; ">="; "{"; "}"; "/"; "<<"; "/="; "<<="; "++"; "="; ":="; ","; ";";
   "%"; ">>"; "%="; ">>="; "--"; "!"; "."; ":"; "&^"; "&^="; "~"].

Definition newline : ascii := ascii_of_nat 10.
Definition dquote : ascii := ascii_of_nat 34.
Definition backslash : ascii := ascii_of_nat 92.
Definition isBlank (c : ascii) : bool := (Ascii.eqb c " " || Ascii.eqb c (ascii_of_nat 9) || Ascii.eqb c (ascii_of_nat 13))%bool.
Definition one (c : ascii) : string := String c EmptyString.

Definition word (x : string) : token := if inb x keywords then tkKey x else tkId x.

(** A line break after such a token is a semicolon (rule 1 of "Semicolons"). *)
Definition endsLine (t : token) : bool :=
  match t with
  | tkId _ | tkNum _ | tkStr _ => true
  | tkKey x => inb x ["break"; "continue"; "fallthrough"; "return"]
  | tkOp x => inb x ["++"; "--"; ")"; "]"; "}"]
  | tkBad => false
  end.

(** What has been read of the current token.  The flag says whether a line
    break would be a semicolon. *)
Inductive lstate : Type :=
| sGap (semi : bool)
| sWord (w : string)
| sNum (w : string)
| sStr (w : string)
| sOp (semi : bool) (o : string)
| sNote (semi : bool).               (* in a comment *)

(** The first character of a token, or between tokens. *)
Definition start (semi : bool) (c : ascii) : list token * lstate :=
  if Ascii.eqb c newline then ((if semi then [tkOp ";"] else []), sGap false)
  else if isBlank c then ([], sGap semi)
  else if isLetter c then ([], sWord (one c))
  else if isDigit c then ([], sNum (one c))
  else if Ascii.eqb c dquote then ([], sStr "")
  else if inb (one c) operators then ([], sOp semi (one c))
  else ([tkBad], sGap false).

(** The current token ends here. *)
Definition finish (st : lstate) : list token * bool :=
  match st with
  | sGap b | sNote b => ([], b)
  | sWord w => ([word w], endsLine (word w))
  | sNum w => ([tkNum w], true)
  | sStr w => ([tkBad], false)
  | sOp _ o => ([tkOp o], endsLine (tkOp o))
  end.

Definition restart (st : lstate) (c : ascii) : list token * lstate :=
  let '(ts, b) := finish st in let '(us, st') := start b c in (ts ++ us, st').

(** One more character; the longest possible token is taken. *)
Definition step (st : lstate) (c : ascii) : list token * lstate :=
  match st with
  | sGap b => start b c
  | sWord w => if (isLetter c || isDigit c)%bool then ([], sWord (w ++ one c)) else restart st c
  | sNum w => if (isLetter c || isDigit c)%bool then ([], sNum (w ++ one c)) else restart st c
  | sStr w =>
      if Ascii.eqb c dquote then ([tkStr w], sGap true)
      else if (Ascii.eqb c backslash || Ascii.eqb c newline)%bool then ([tkBad], sGap false)
      else ([], sStr (w ++ one c))
  | sOp b o =>
      if (String.eqb o "/" && Ascii.eqb c "/")%bool then ([], sNote b)
      else if (String.eqb o "/" && Ascii.eqb c "*")%bool then ([tkBad], sGap false)
      else if inb (o ++ one c) operators then ([], sOp b (o ++ one c))
      else restart st c
  | sNote b => if Ascii.eqb c newline then start b c else ([], st)
  end.

Fixpoint run (st : lstate) (s : string) : list token * lstate :=
  match s with
  | EmptyString => ([], st)
  | String c s' => let '(ts, st1) := step st c in let '(us, st2) := run st1 s' in (ts ++ us, st2)
  end.

(** The tokens of a text, with the semicolons that line breaks stand for. *)
Definition tokens (s : string) : list token :=
  let '(ts, st) := run (sGap false) s in let '(us, b) := finish st in ts ++ us ++ (if b then [tkOp ";"] else []).

(** * Syntax *)

(** Expressions and types. *)
Inductive gx : Type :=
| XName (x : string)
| XNum (x : string)
| XStr (x : string)
| XParen (e : gx)
| XSel (e : gx) (f : string)             (* e.f *)
| XIndex (e i : gx)                      (* e[i] *)
| XSlice (e : gx) (lo hi : option gx)    (* e[lo:hi] *)
| XCall (f : gx) (args : list gx)
| XUn (o : string) (e : gx)
| XBin (o : string) (a b : gx)
| XSliceOf (t : gx)                      (* []t *)
| XArrayOf (n t : gx)                    (* [n]t *)
| XStructOf (fs : list (string * gx))    (* struct{ f t; ... } *)
| XLit (t : gx) (es : list gx)           (* t{...} *)
| XElem (es : list gx)                   (* {...} inside of a literal *)
| XKey (k e : gx).                       (* k: e inside of a literal *)

Inductive gs : Type :=
| YAssign (o : string) (l r : list gx)   (* l = r or l := r *)
| YInc (e : gx)
| YExpr (e : gx)
| YVar (x : string) (t : gx)
| YIf (c : gx) (b : list gs)
| YBlock (b : list gs)
| YFor (i : gs) (c : gx) (p : gs) (b : list gs)
| YWhile (c : gx) (b : list gs)
| YRange (l : list gx) (e : gx) (b : list gs)
| YSwitch (cs : list (option (list gx) * list gs))
| YReturn (es : list gx).

Inductive gd : Type :=
| YType (x : string) (t : gx)
| YFunc (recv : option (string * gx)) (x : string) (params : list (string * gx)) (results : list gx) (b : list gs).

Notation "' p <-? e ;; k" := (match e with Some p => k | None => None end) (at level 61, p pattern, e at next level, right associativity).

(** Precedence of binary operators; 0 for other tokens. *)
Definition precOf (o : string) : nat :=
  if inb o ["||"] then 1 else if inb o ["&&"] then 2
  else if inb o ["=="; "!="; "<"; "<="; ">"; ">="] then 3
  else if inb o ["+"; "-"; "|"; "^"] then 4
  else if inb o ["*"; "/"; "%"; "<<"; ">>"; "&"; "&^"] then 5 else 0%nat.
Definition isUnary (o : string) : bool := inb o ["+"; "-"; "!"; "^"; "*"; "&"; "<-"].

(** The next token is this operator or keyword. *)
Definition isOp (o : string) (ts : list token) : bool := match ts with tkOp x :: _ => String.eqb x o | _ => false end.
Definition isKey (k : string) (ts : list token) : bool := match ts with tkKey x :: _ => String.eqb x k | _ => false end.
Definition expect (o : string) (ts : list token) : option (list token) := if isOp o ts then Some (tl ts) else None.
Definition name1 (ts : list token) : option (string * list token) := match ts with tkId x :: ts' => Some (x, ts') | _ => None end.

(** Recursive descent; [n] bounds the depth. *)
Fixpoint pBin (n : nat) (prec : nat) (ts : list token) {struct n} : option (gx * list token) :=
  match n with
  | O => None
  | S n => '(x, ts) <-? pUn n ts ;; pMore n prec x ts
  end
(** Further operands of operators that bind at least as strongly as [prec]. *)
with pMore (n : nat) (prec : nat) (x : gx) (ts : list token) {struct n} : option (gx * list token) :=
  match n with
  | O => None
  | S n =>
      match ts with
      | tkOp o :: ts' =>
          if (Nat.leb 1 (precOf o) && Nat.leb prec (precOf o))%bool then
            '(y, ts) <-? pBin n (S (precOf o)) ts' ;; pMore n prec (XBin o x y) ts
          else Some (x, ts)
      | _ => Some (x, ts)
      end
  end
with pUn (n : nat) (ts : list token) {struct n} : option (gx * list token) :=
  match n with
  | O => None
  | S n =>
      match ts with
      | tkOp o :: ts' =>
          if isUnary o then '(x, ts) <-? pUn n ts' ;; Some (XUn o x, ts)
          else '(x, ts) <-? pOperand n ts ;; pPost n x ts
      | _ => '(x, ts) <-? pOperand n ts ;; pPost n x ts
      end
  end
with pOperand (n : nat) (ts : list token) {struct n} : option (gx * list token) :=
  match n with
  | O => None
  | S n =>
      match ts with
      | tkId x :: ts' => Some (XName x, ts')
      | tkNum x :: ts' => Some (XNum x, ts')
      | tkStr x :: ts' => Some (XStr x, ts')
      | _ =>
          if isOp "(" ts then '(x, ts) <-? pBin n 1 (tl ts) ;; 'ts <-? expect ")" ts ;; Some (XParen x, ts)
          else '(t, ts) <-? pType n ts ;;
            if isOp "{" ts then '(es, ts) <-? pElems n (tl ts) ;; Some (XLit t es, ts) else Some (t, ts)
      end
  end
(** Selectors, indices, slices and calls. *)
with pPost (n : nat) (x : gx) (ts : list token) {struct n} : option (gx * list token) :=
  match n with
  | O => None
  | S n =>
      if isOp "." ts then '(f, ts) <-? name1 (tl ts) ;; pPost n (XSel x f) ts
      else if isOp "(" ts then '(es, ts) <-? pArgs n (tl ts) ;; pPost n (XCall x es) ts
      else if isOp "[" ts then
        (if isOp ":" (tl ts) then
           if isOp "]" (tl (tl ts)) then pPost n (XSlice x None None) (tl (tl (tl ts)))
           else '(hi, ts) <-? pBin n 1 (tl (tl ts)) ;; 'ts <-? expect "]" ts ;; pPost n (XSlice x None (Some hi)) ts
         else
           '(i, ts) <-? pBin n 1 (tl ts) ;;
           if isOp "]" ts then pPost n (XIndex x i) (tl ts)
           else 'ts <-? expect ":" ts ;;
             if isOp "]" ts then pPost n (XSlice x (Some i) None) (tl ts)
             else '(hi, ts) <-? pBin n 1 ts ;; 'ts <-? expect "]" ts ;; pPost n (XSlice x (Some i) (Some hi)) ts)
      else Some (x, ts)
  end
(** The arguments of a call, up to the closing parenthesis. *)
with pArgs (n : nat) (ts : list token) {struct n} : option (list gx * list token) :=
  match n with
  | O => None
  | S n =>
      if isOp ")" ts then Some ([], tl ts)
      else '(x, ts) <-? pBin n 1 ts ;;
        if isOp ")" ts then Some ([x], tl ts)
        else 'ts <-? expect "," ts ;; '(xs, ts) <-? pArgs n ts ;; Some (x :: xs, ts)
  end
(** The elements of a literal, up to the closing brace. *)
with pElems (n : nat) (ts : list token) {struct n} : option (list gx * list token) :=
  match n with
  | O => None
  | S n =>
      if isOp "}" ts then Some ([], tl ts)
      else '(x, ts) <-? pElem n ts ;;
        '(x, ts) <-? (if isOp ":" ts then '(y, ts) <-? pElem n (tl ts) ;; Some (XKey x y, ts) else Some (x, ts)) ;;
        if isOp "}" ts then Some ([x], tl ts)
        else 'ts <-? expect "," ts ;; '(xs, ts) <-? pElems n ts ;; Some (x :: xs, ts)
  end
with pElem (n : nat) (ts : list token) {struct n} : option (gx * list token) :=
  match n with
  | O => None
  | S n => if isOp "{" ts then '(es, ts) <-? pElems n (tl ts) ;; Some (XElem es, ts) else pBin n 1 ts
  end
with pType (n : nat) (ts : list token) {struct n} : option (gx * list token) :=
  match n with
  | O => None
  | S n =>
      match ts with
      | tkId x :: ts' =>
          if isOp "." ts' then '(f, ts) <-? name1 (tl ts') ;; Some (XSel (XName x) f, ts) else Some (XName x, ts')
      | _ =>
          if isOp "*" ts then '(t, ts) <-? pType n (tl ts) ;; Some (XUn "*" t, ts)
          else if isOp "[" ts then
            if isOp "]" (tl ts) then '(t, ts) <-? pType n (tl (tl ts)) ;; Some (XSliceOf t, ts)
            else '(k, ts) <-? pBin n 1 (tl ts) ;; 'ts <-? expect "]" ts ;; '(t, ts) <-? pType n ts ;; Some (XArrayOf k t, ts)
          else if isKey "struct" ts then
            'ts <-? expect "{" (tl ts) ;; '(fs, ts) <-? pFields n ts ;; Some (XStructOf fs, ts)
          else None
      end
  end
(** The fields of a struct, up to the closing brace. *)
with pFields (n : nat) (ts : list token) {struct n} : option (list (string * gx) * list token) :=
  match n with
  | O => None
  | S n =>
      if isOp "}" ts then Some ([], tl ts)
      else '(f, ts) <-? name1 ts ;; '(t, ts) <-? pType n ts ;;
        if isOp "}" ts then Some ([(f, t)], tl ts)
        else 'ts <-? expect ";" ts ;; '(fs, ts) <-? pFields n ts ;; Some ((f, t) :: fs, ts)
  end.

(** Expressions separated by commas. *)
Fixpoint pList (n : nat) (ts : list token) {struct n} : option (list gx * list token) :=
  match n with
  | O => None
  | S n =>
      '(x, ts) <-? pBin n 1 ts ;;
      if isOp "," ts then '(xs, ts) <-? pList n (tl ts) ;; Some (x :: xs, ts) else Some ([x], ts)
  end.

(** Simple statements. *)
Definition pSimple (n : nat) (ts : list token) : option (gs * list token) :=
  '(l, ts) <-? pList n ts ;;
  if isOp "=" ts then '(r, ts) <-? pList n (tl ts) ;; Some (YAssign "=" l r, ts)
  else if isOp ":=" ts then '(r, ts) <-? pList n (tl ts) ;; Some (YAssign ":=" l r, ts)
  else match l with
       | [x] => if isOp "++" ts then Some (YInc x, tl ts) else Some (YExpr x, ts)
       | _ => None
       end.

(** Statements end with a semicolon, which may be omitted before a closing brace
    (rule 2 of "Semicolons"). *)
Fixpoint pStmt (n : nat) (ts : list token) {struct n} : option (gs * list token) :=
  match n with
  | O => None
  | S n =>
      if isOp "{" ts then '(b, ts) <-? pBlock n ts ;; Some (YBlock b, ts)
      else if isKey "var" ts then '(x, ts) <-? name1 (tl ts) ;; '(t, ts) <-? pType n ts ;; Some (YVar x t, ts)
      else if isKey "if" ts then '(c, ts) <-? pBin n 1 (tl ts) ;; '(b, ts) <-? pBlock n ts ;; Some (YIf c b, ts)
      else if isKey "for" ts then
        '(l, ts) <-? pList n (tl ts) ;;
        if isOp ":=" ts then
          if isKey "range" (tl ts) then '(e, ts) <-? pBin n 1 (tl (tl ts)) ;; '(b, ts) <-? pBlock n ts ;; Some (YRange l e b, ts)
          else
            '(r, ts) <-? pList n (tl ts) ;; 'ts <-? expect ";" ts ;;
            '(c, ts) <-? pBin n 1 ts ;; 'ts <-? expect ";" ts ;;
            '(p, ts) <-? pSimple n ts ;; '(b, ts) <-? pBlock n ts ;; Some (YFor (YAssign ":=" l r) c p b, ts)
        else match l with [c] => '(b, ts) <-? pBlock n ts ;; Some (YWhile c b, ts) | _ => None end
      else if isKey "switch" ts then 'ts <-? expect "{" (tl ts) ;; '(cs, ts) <-? pCases n ts ;; Some (YSwitch cs, ts)
      else if isKey "return" ts then '(es, ts) <-? pList n (tl ts) ;; Some (YReturn es, ts)
      else pSimple n ts
  end
with pBlock (n : nat) (ts : list token) {struct n} : option (list gs * list token) :=
  match n with
  | O => None
  | S n => 'ts <-? expect "{" ts ;; '(b, ts) <-? pStmts n ts ;; 'ts <-? expect "}" ts ;; Some (b, ts)
  end
(** Up to a closing brace, or the next case. *)
with pStmts (n : nat) (ts : list token) {struct n} : option (list gs * list token) :=
  match n with
  | O => None
  | S n =>
      if (isOp "}" ts || isKey "case" ts || isKey "default" ts)%bool then Some ([], ts)
      else if isOp ";" ts then pStmts n (tl ts)
      else '(s, ts) <-? pStmt n ts ;;
        if isOp "}" ts then Some ([s], ts)
        else 'ts <-? expect ";" ts ;; '(b, ts) <-? pStmts n ts ;; Some (s :: b, ts)
  end
with pCases (n : nat) (ts : list token) {struct n} : option (list (option (list gx) * list gs) * list token) :=
  match n with
  | O => None
  | S n =>
      if isOp "}" ts then Some ([], tl ts)
      else if isKey "case" ts then
        '(es, ts) <-? pList n (tl ts) ;; 'ts <-? expect ":" ts ;; '(b, ts) <-? pStmts n ts ;;
        '(cs, ts) <-? pCases n ts ;; Some ((Some es, b) :: cs, ts)
      else if isKey "default" ts then
        'ts <-? expect ":" (tl ts) ;; '(b, ts) <-? pStmts n ts ;;
        '(cs, ts) <-? pCases n ts ;; Some ((None, b) :: cs, ts)
      else None
  end.

(** Parameters with their types, up to the closing parenthesis. *)
Fixpoint pParams (n : nat) (ts : list token) {struct n} : option (list (string * gx) * list token) :=
  match n with
  | O => None
  | S n =>
      if isOp ")" ts then Some ([], tl ts)
      else '(x, ts) <-? name1 ts ;; '(t, ts) <-? pType n ts ;;
        if isOp ")" ts then Some ([(x, t)], tl ts)
        else 'ts <-? expect "," ts ;; '(ps, ts) <-? pParams n ts ;; Some ((x, t) :: ps, ts)
  end.
Fixpoint pTypes (n : nat) (ts : list token) {struct n} : option (list gx * list token) :=
  match n with
  | O => None
  | S n =>
      '(t, ts) <-? pType n ts ;;
      if isOp ")" ts then Some ([t], tl ts) else 'ts <-? expect "," ts ;; '(us, ts) <-? pTypes n ts ;; Some (t :: us, ts)
  end.
Definition pResults (n : nat) (ts : list token) : option (list gx * list token) :=
  if isOp "{" ts then Some ([], ts)
  else if isOp "(" ts then pTypes n (tl ts)
  else '(t, ts) <-? pType n ts ;; Some ([t], ts).

Definition pDecl (n : nat) (ts : list token) : option (gd * list token) :=
  if isKey "type" ts then '(x, ts) <-? name1 (tl ts) ;; '(t, ts) <-? pType n ts ;; Some (YType x t, ts)
  else if isKey "func" ts then
    '(rv, ts) <-? (if isOp "(" (tl ts) then
                     '(x, ts) <-? name1 (tl (tl ts)) ;; '(t, ts) <-? pType n ts ;; 'ts <-? expect ")" ts ;; Some (Some (x, t), ts)
                   else Some (None, tl ts)) ;;
    '(x, ts) <-? name1 ts ;; 'ts <-? expect "(" ts ;; '(ps, ts) <-? pParams n ts ;;
    '(rs, ts) <-? pResults n ts ;; '(b, ts) <-? pBlock n ts ;; Some (YFunc rv x ps rs b, ts)
  else None.
Fixpoint pDecls (n : nat) (ts : list token) {struct n} : option (list gd) :=
  match n with
  | O => None
  | S n =>
      match ts with
      | [] => Some []
      | _ => '(d, ts) <-? pDecl n ts ;; 'ts <-? expect ";" ts ;; 'ds <-? pDecls n ts ;; Some (d :: ds)
      end
  end.
(** Imports of packages by their own names. *)
Fixpoint pPaths (n : nat) (ts : list token) {struct n} : option (list token) :=
  match n with
  | O => None
  | S n =>
      match ts with
      | tkStr _ :: ts' => 'ts <-? expect ";" ts' ;; pPaths n ts
      | _ => expect ")" ts
      end
  end.
Fixpoint pImports (n : nat) (ts : list token) {struct n} : option (list token) :=
  match n with
  | O => None
  | S n =>
      if isKey "import" ts then
        'ts <-? (if isOp "(" (tl ts) then pPaths n (tl (tl ts)) else match tl ts with tkStr _ :: ts' => Some ts' | _ => None end) ;;
        'ts <-? expect ";" ts ;; pImports n ts
      else Some ts
  end.
(** A source file: the name of the package and the declarations. *)
Definition pFile (n : nat) (ts : list token) : option (string * list gd) :=
  if isKey "package" ts then
    '(x, ts) <-? name1 (tl ts) ;; 'ts <-? expect ";" ts ;; 'ts <-? pImports n ts ;; 'ds <-? pDecls n ts ;; Some (x, ds)
  else None.

(** * Meaning *)

(** Decimal and hexadecimal integers. *)
Fixpoint hexOf (acc : Z) (s : string) : option Z :=
  match s with
  | EmptyString => Some acc
  | String c s' =>
      let k := Z.of_nat (nat_of_ascii c) in
      if (48 <=? k) && (k <=? 57) then hexOf (16 * acc + (k - 48)) s'
      else if (97 <=? k) && (k <=? 102) then hexOf (16 * acc + (k - 87)) s'
      else if (65 <=? k) && (k <=? 70) then hexOf (16 * acc + (k - 55)) s'
      else None
  end.
Definition intOf (s : string) : option Z :=
  match s with
  | String "0" EmptyString => Some 0
  | String "0" (String "x" (String c s')) => hexOf 0 (String c s')
  | String "0" _ => None
  | _ => option_map Z.of_uint (NilZero.uint_of_string s)
  end.

(** What these names mean, unless something else has the name. *)
Definition plainNames : list string :=
  ["len"; "int"; "string"; "byte"; "uint8"; "uint16"; "uint32"; "uint64"; "error"; "make"; "new"; "append"; "nil";
   "errors"; "bytes"; "binary"].
Definition fresh (x : string) : bool := (negb (inb x plainNames) && negb (String.eqb x "_"))%bool.

Fixpoint typeOf (t : gx) : option gtype :=
  match t with
  | XName x =>
      if String.eqb x "uint8" then Some (GUint 8) else if String.eqb x "uint16" then Some (GUint 16)
      else if String.eqb x "uint32" then Some (GUint 32) else if String.eqb x "uint64" then Some (GUint 64)
      else if String.eqb x "byte" then Some GByte else if String.eqb x "int" then Some GInt
      else if String.eqb x "string" then Some GString else if String.eqb x "error" then Some GError else None
  | XUn o (XName x) => if (String.eqb o "*" && fresh x)%bool then Some (GPtr x) else None
  | XSliceOf t => 'g <-? typeOf t ;; Some (GSlice g)
  | XArrayOf (XNum n) t => 'k <-? intOf n ;; 'g <-? typeOf t ;; Some (GArray k g)
  | _ => None
  end.

Definition opOf (o : string) : option binop :=
  if String.eqb o "==" then Some BEq else if String.eqb o "<=" then Some BLe
  else if String.eqb o "<" then Some BLt else if String.eqb o ">" then Some BGt
  else if String.eqb o "&&" then Some BAnd else if String.eqb o "||" then Some BOr
  else if String.eqb o "+" then Some BAdd else if String.eqb o "-" then Some BSub else None.

(** Calls of predeclared functions, conversions, and functions of packages. *)
Definition builtin (f : string) (es : list expr) : option expr :=
  match es with
  | [a] =>
      if String.eqb f "len" then Some (ELen a) else if String.eqb f "int" then Some (EToInt a)
      else if String.eqb f "string" then Some (EStringOf a) else None
  | [a; b] => if String.eqb f "append" then Some (EAppend a b) else None
  | _ => None
  end.
Definition bigEndian (f : string) : option Z :=
  if String.eqb f "Uint16" then Some 16 else if String.eqb f "Uint32" then Some 32
  else if String.eqb f "Uint64" then Some 64 else None.

Fixpoint exprOf (e : gx) : option expr :=
  match e with
  | XName x => if String.eqb x "nil" then Some ENil else if fresh x then Some (EVar x) else None
  | XNum n => 'z <-? intOf n ;; Some (EInt z)
  | XParen e => 'a <-? exprOf e ;; Some (EParen a)
  | XSel e f => 'a <-? exprOf e ;; Some (ESel a f)
  | XIndex e i => 'a <-? exprOf e ;; 'b <-? exprOf i ;; Some (EIdx a b)
  | XSlice e (Some lo) None => 'a <-? exprOf e ;; 'b <-? exprOf lo ;; Some (EFrom a b)
  | XSlice e None (Some hi) => 'a <-? exprOf e ;; 'b <-? exprOf hi ;; Some (ETo a b)
  | XUn o e =>
      if String.eqb o "!" then 'a <-? exprOf e ;; Some (ENot a)
      else if String.eqb o "-" then match e with XNum n => 'z <-? intOf n ;; Some (EInt (- z)) | _ => None end
      else None
  | XBin o a (XName x) =>
      if (String.eqb o "!=" && String.eqb x "nil")%bool then 'a <-? exprOf a ;; Some (ENotNil a)
      else if fresh x then 'a <-? exprOf a ;; 'o <-? opOf o ;; Some (EBin o a (EVar x))
      else None
  | XBin o a b => 'a <-? exprOf a ;; 'b <-? exprOf b ;; 'o <-? opOf o ;; Some (EBin o a b)
  | XCall (XName f) args =>
      if String.eqb f "make" then
        match args with [XSliceOf t; n] => 'g <-? typeOf t ;; 'k <-? exprOf n ;; Some (EMake g k) | _ => None end
      else if String.eqb f "new" then
        match args with [XName x] => if fresh x then Some (ENew x) else None | _ => None end
      else match args with
           | [a] => 'a <-? exprOf a ;; builtin f [a]
           | [a; b] => 'a <-? exprOf a ;; 'b <-? exprOf b ;; builtin f [a; b]
           | _ => None
           end
  | XCall (XSel (XSel (XName q) t) f) [a] =>
      if (String.eqb q "binary" && String.eqb t "BigEndian")%bool then
        'b <-? bigEndian f ;; 'a <-? exprOf a ;; Some (EBigEndian b a)
      else None
  | XCall (XSel (XName q) f) [XStr m] => if (String.eqb q "errors" && String.eqb f "New")%bool then Some (EError m) else None
  | XCall (XSel (XName q) f) [a; XNum n] =>
      if (String.eqb q "bytes" && String.eqb f "IndexByte")%bool then
        'a <-? exprOf a ;; 'z <-? intOf n ;; Some (EIndexByte a z)
      else None
  | XLit (XSliceOf (XName x)) [] => if String.eqb x "byte" then Some EEmptyBytes else None
  | _ => None
  end.
Fixpoint all {A B} (f : A -> option B) (l : list A) : option (list B) :=
  match l with [] => Some [] | x :: l' => 'y <-? f x ;; 'ys <-? all f l' ;; Some (y :: ys) end.

Fixpoint lvalOf (e : gx) : option lval :=
  match e with
  | XName x => if fresh x then Some (LVar x) else None
  | XSel e f => 'l <-? lvalOf e ;; Some (LField l f)
  | XIndex e i => 'l <-? lvalOf e ;; 'k <-? exprOf i ;; Some (LIdx l k)
  | _ => None
  end.

Definition assignOf (l r : list gx) : option stmt :=
  match l, r with
  | [x], [e] => 'l <-? lvalOf x ;; 'a <-? exprOf e ;; Some (SAssign l a)
  | [x; y], [e; f] => 'l <-? lvalOf x ;; 'k <-? lvalOf y ;; 'a <-? exprOf e ;; 'b <-? exprOf f ;; Some (SAssign2 l k a b)
  | [XName x; XName err], [XCall (XSel o m) (a :: args)] =>
      if (String.eqb m "Parse" && fresh x && fresh err)%bool then
        'o <-? lvalOf o ;; 'a <-? exprOf a ;; 'args <-? all exprOf args ;; Some (SParse x err o a args)
      else None
  | _, _ => None
  end.
Definition declareOf (l r : list gx) : option stmt :=
  match l, r with
  | [XName x], [e] => if fresh x then 'a <-? exprOf e ;; Some (SDecl x a) else None
  | [XName x; XName err], [XCall (XSel o m) (a :: args)] =>
      if (String.eqb m "Parse" && String.eqb x "_" && fresh err)%bool then
        'o <-? lvalOf o ;; 'a <-? exprOf a ;; 'args <-? all exprOf args ;; Some (SParseDecl err o a args)
      else None
  | _, _ => None
  end.

Fixpoint stmtOf (s : gs) : option stmt :=
  let body := fix body (l : list gs) : option (list stmt) :=
    match l with [] => Some [] | x :: l' => 'y <-? stmtOf x ;; 'ys <-? body l' ;; Some (y :: ys) end in
  match s with
  | YAssign o l r => if String.eqb o "=" then assignOf l r else if String.eqb o ":=" then declareOf l r else None
  | YVar x t => if fresh x then 'g <-? typeOf t ;; Some (SVar x g) else None
  | YIf c b => 'a <-? exprOf c ;; 'b <-? body b ;; Some (SIf a b)
  | YBlock b => 'b <-? body b ;; Some (SBlock b)
  | YFor (YAssign o [XName x] [XNum z]) (XBin lt (XName y) e) (YInc (XName w)) b =>
      if (String.eqb o ":=" && fresh x && String.eqb z "0" && String.eqb lt "<" && String.eqb x y && String.eqb x w)%bool then
        'a <-? exprOf e ;; 'b <-? body b ;; Some (SForLt x a b)
      else None
  | YWhile c b => 'a <-? exprOf c ;; 'b <-? body b ;; Some (SWhile a b)
  | YSwitch cs =>
      'cs <-? (fix cases (l : list (option (list gx) * list gs)) : option (list (option expr * list stmt)) :=
                 match l with
                 | [] => Some []
                 | (Some [e], b) :: l' => 'a <-? exprOf e ;; 'b <-? body b ;; 'cs <-? cases l' ;; Some ((Some a, b) :: cs)
                 | (None, b) :: l' => 'b <-? body b ;; 'cs <-? cases l' ;; Some ((None, b) :: cs)
                 | _ => None
                 end) cs ;; Some (SSwitch cs)
  | YReturn [e; f] => 'a <-? exprOf e ;; 'b <-? exprOf f ;; Some (SReturn a b)
  | _ => None
  end.
Definition stmtsOf : list gs -> option (list stmt) := all stmtOf.

(** Declarations: a struct type; a method [func (x *T) Parse(data []byte, c C, ...) ([]byte, error)];
    a function [func ParseT(data []byte, c C, ...) ( *T, error)]; parameters with the names of their types. *)
Inductive decl : Type :=
| DType (x : string) (fs : list (string * gtype))
| DMethod (ty : string) (types : list string) (f : func)
| DFunc (ty : string) (types : list string) (f : func).

Definition fieldOf (f : string * gx) : option (string * gtype) := 'g <-? typeOf (snd f) ;; Some (fst f, g).
Definition paramOf (f : string * gx) : option (string * string) :=
  match snd f with XName c => if (fresh (fst f) && fresh c)%bool then Some (fst f, c) else None | _ => None end.
Definition isByteSlice (t : gx) : bool := match t with XSliceOf (XName x) => String.eqb x "byte" | _ => false end.
Definition isErrorType (t : gx) : bool := match t with XName x => String.eqb x "error" | _ => false end.

Definition declOf (d : gd) : option decl :=
  match d with
  | YType x (XStructOf fs) => if fresh x then 'fs <-? all fieldOf fs ;; Some (DType x fs) else None
  | YFunc (Some (x, XUn o (XName ty))) m ((dt, t) :: ps) [r1; r2] b =>
      if (String.eqb o "*" && fresh x && fresh ty && String.eqb m "Parse" && String.eqb dt "data" && isByteSlice t && isByteSlice r1 && isErrorType r2)%bool then
        'ps <-? all paramOf ps ;; 'b <-? stmtsOf b ;; Some (DMethod ty (map snd ps) (mkFunc x (map fst ps) b))
      else None
  | YFunc None m ((dt, t) :: ps) [XUn o (XName ty); r2] b =>
      if (String.eqb o "*" && fresh ty && String.eqb m ("Parse" ++ ty)%string && String.eqb dt "data" && isByteSlice t && isErrorType r2)%bool then
        'ps <-? all paramOf ps ;; 'b <-? stmtsOf b ;; Some (DFunc ty (map snd ps) (mkFunc "" (map fst ps) b))
      else None
  | _ => None
  end.

(** How Go reads a source file, to the depth [n]: the name of the package, and its declarations. *)
Definition readGo (n : nat) (s : string) : option (string * list decl) :=
  '(pkg, ds) <-? pFile n (tokens s) ;; 'ds <-? all declOf ds ;; Some (pkg, ds).

(** The program that consists of some declarations. *)
Definition typesOf (ds : list decl) : amap (list (string * gtype)) :=
  flat_map (fun d => match d with DType x fs => [(x, fs)] | _ => [] end) ds.
Definition methodsOf (ds : list decl) : amap func :=
  flat_map (fun d => match d with DMethod x _ f => [(x, f)] | _ => [] end) ds.
Definition funcsOf (ds : list decl) : amap func :=
  flat_map (fun d => match d with DFunc x _ f => [(x, f)] | _ => [] end) ds.
Definition programOf (ds : list decl) : program := mkProg (typesOf ds) (methodsOf ds) (funcsOf ds).
