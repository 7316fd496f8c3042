(** The trunnel language as a context-free grammar over Unicode text, written
    without reference to the parsing engine.  Alternatives are unordered,
    repetition is not greedy and nothing is ever undone; only single tokens are
    taken as long as possible.

    The language is that of the rules in parse/trunnel.pigeon:24-495. *)
From Coq Require Import ZArith String Ascii List Bool.
From Verif Require Import Base Ast.
Import ListNotations.
Open Scope string_scope.
Open Scope list_scope.
Open Scope Z_scope.

(** * Unicode *)

(** Unicode scalar values. *)
Definition scalar (c : Z) : Prop := 0 <= c < 55296 \/ 57344 <= c < 1114112.

Definition octet (b : Z) : ascii := ascii_of_N (Z.to_N b).

(** RFC 3629, section 3. *)
Definition utf8_1 (c : Z) : list ascii :=
  map octet
    (if c <? 128 then [c]
     else if c <? 2048 then [192 + c / 64; 128 + c mod 64]
     else if c <? 65536 then [224 + c / 4096; 128 + (c / 64) mod 64; 128 + c mod 64]
     else [240 + c / 262144; 128 + (c / 4096) mod 64; 128 + (c / 64) mod 64; 128 + c mod 64]).
Definition utf8 (cs : list Z) : list ascii := flat_map utf8_1 cs.

(** The code points of an ASCII string, and back. *)
Definition points (s : string) : list Z :=
  map (fun a => Z.of_N (N_of_ascii a)) (list_ascii_of_string s).
Definition named (cs : list Z) : string := string_of_list_ascii (map octet cs).

(** * Grammars

    A nonterminal relates a value, the inline structs declared on the way, an
    input and the rest of the input after one occurrence of the nonterminal. *)
Definition input := list Z.
Definition prod (A : Type) := A -> list struct -> input -> input -> Prop.

Definition empty {A} (a : A) : prod A := fun b ss i r => b = a /\ ss = [] /\ r = i.
Definition follow {A B} (p : prod A) (k : A -> prod B) : prod B := fun b ss i r =>
  exists a s1 s2 m, p a s1 i m /\ k a b s2 m r /\ ss = s1 ++ s2.
Notation "x <~ p ;; k" := (follow p (fun x => k))
  (at level 61, p at next level, right associativity).
Notation "p ~~ k" := (follow p (fun _ => k)) (at level 61, right associativity).
Definition either {A} (p q : prod A) : prod A := fun a ss i r => p a ss i r \/ q a ss i r.
Declare Scope prod_scope.
Infix "||" := either (at level 50, left associativity) : prod_scope.
Delimit Scope prod_scope with prod.
Inductive star {A} (p : prod A) : prod (list A) :=
| star_nil : forall i, star p [] [] i i
| star_cons : forall a l s1 s2 i m r,
    p a s1 i m -> star p l s2 m r -> star p (a :: l) (s1 ++ s2) i r.
Definition maybe {A} (p : prod A) : prod (option A) := fun o ss i r =>
  match o with
  | Some a => p a ss i r
  | None => ss = [] /\ r = i
  end.
Definition as_ {A B} (f : A -> B) (p : prod A) : prod B := x <~ p ;; empty (f x).

(** * Tokens *)

(** Fixed texts. *)
Definition tok (w : string) : prod unit := fun _ ss i r => ss = [] /\ i = points w ++ r.

(** [r] does not go on with a character of the class. *)
Definition stops (class : Z -> bool) (r : input) : Prop :=
  match r with c :: _ => class c = false | [] => True end.

Definition between (lo hi c : Z) : bool := (lo <=? c) && (c <=? hi).
Definition lower (c : Z) : bool := between 97 122 c.
Definition upper (c : Z) : bool := between 65 90 c || (c =? 95).
Definition digit10 (c : Z) : bool := between 48 57 c.
Definition digit8 (c : Z) : bool := between 48 55 c.
Definition digit16 (c : Z) : bool := digit10 c || between 97 102 c || between 65 70 c.

Definition first_ (c : Z) : bool := lower c || upper c.
Definition later_ (c : Z) : bool := first_ c || digit10 c.
Definition upperLater (c : Z) : bool := upper c || digit10 c.

(** The longest word with the given first and later characters. *)
Definition word (first later : Z -> bool) : prod string := fun n ss i r =>
  ss = [] /\
  exists c cs, first c = true /\ forallb later cs = true /\ stops later r /\
               i = c :: cs ++ r /\ n = named (c :: cs).
Definition Identifier : prod string := word first_ later_.
Definition ConstIdentifier : prod string := word upper upperLater.

(** Value of a digit and of a digit string. *)
Definition digitValue (c : Z) : Z :=
  if digit10 c then c - 48 else if lower c then c - 97 + 10 else c - 65 + 10.
Definition valueOf (base : Z) (ds : list Z) : Z := fold_left (fun n c => n * base + digitValue c) ds 0.

(** Non-empty digit strings, as long as possible. *)
Definition digits (class : Z -> bool) (ds i r : input) : Prop :=
  ds <> [] /\ forallb class ds = true /\ stops class r /\ i = ds ++ r.

Definition Literal : prod Z := fun v ss i r =>
  ss = [] /\ v < 2 ^ 63 /\
  ((exists ds m, i = points "0x" ++ m /\ digits digit16 ds m r /\ v = valueOf 16 ds) \/
   (exists ds m, i = points "0" ++ m /\ digits digit8 ds m r /\ v = valueOf 8 ds) \/
   (exists ds, hd 0 ds <> 48 /\ digits digit10 ds i r /\ v = valueOf 10 ds) \/
   (i = points "0" ++ r /\ stops digit10 r /\ v = 0 /\
    ~ (exists h m, r = points "x" ++ h :: m /\ digit16 h = true))).

(** Blanks and comments, trunnel.pigeon:466-495. *)
Inductive blank : input -> input -> Prop :=
| blank_char : forall c r, In c [32; 9; 13; 10] -> blank (c :: r) r
| blank_block : forall body r,
    (forall a b, body ++ points "*" <> a ++ points "*/" ++ b) ->
    blank (points "/*" ++ body ++ points "*/" ++ r) r
| blank_line : forall body r, ~ In 10 body -> hd 10 r = 10 ->
    blank (points "//" ++ body ++ r) r.

(** All blanks up to the next token. *)
Inductive blanks : input -> input -> Prop :=
| blanks_end : forall r, (forall r', ~ blank r r') -> blanks r r
| blanks_more : forall i m r, blank i m -> blanks m r -> blanks i r.
Definition gap : prod unit := fun _ ss i r => ss = [] /\ blanks i r.
Definition gap1 : prod unit := fun _ ss i r => ss = [] /\ exists m, blank i m /\ blanks m r.

(** * Productions *)
Local Open Scope prod_scope.

Definition Int : prod integer := as_ IConst ConstIdentifier || as_ ILit Literal.
Definition Ref : prod idref :=
  (s <~ Identifier ;; tok "." ~~ n <~ Identifier ;; empty (mkRef s n)) ||
  as_ (mkRef "") Identifier.
Definition listOf {A} (p : prod A) : prod (list A) :=
  x <~ p ;; xs <~ star (gap ~~ tok "," ~~ gap ~~ p) ;; empty (x :: xs).
Definition Range : prod irange :=
  (lo <~ Int ;; empty (mkRange lo None)) ||
  (lo <~ Int ;; gap ~~ tok ".." ~~ gap ~~ hi <~ Int ;; empty (mkRange lo (Some hi))).
Definition Constraint_ : prod intlist :=
  tok "IN" ~~ gap1 ~~ tok "[" ~~ gap ~~ l <~ listOf Range ;; gap ~~ tok "]" ~~ empty l.
Definition Size : prod Z :=
  as_ (fun _ => 8) (tok "8") || as_ (fun _ => 16) (tok "16") ||
  as_ (fun _ => 32) (tok "32") || as_ (fun _ => 64) (tok "64").
Definition IntType : prod Z := tok "u" ~~ Size.
Definition Len : prod lconstraint := (tok "..-" ~~ as_ LLeftover Int) || as_ LRef Ref.

Definition StructName : prod string := tok "struct" ~~ gap1 ~~ Identifier.
Definition Contexts : prod (list string) :=
  (gap1 ~~ tok "with" ~~ gap1 ~~ tok "context" ~~ gap1 ~~ listOf Identifier) || empty [].

(** Words made of capitals, digits and underscores only are constants. *)
Definition constantName (n : string) : Prop :=
  forallb upperLater (points n) = true /\ digit10 (hd 0 (points n)) = false.
Definition notConstant (l : lconstraint) : Prop :=
  match l with
  | LRef (mkRef s n) => s = "" -> ~ constantName n
  | LLeftover _ => True
  end.
Definition such {A} (q : A -> Prop) (p : prod A) : prod A := fun a ss i r => p a ss i r /\ q a.

(** The inline struct comes after those declared inside it. *)
Definition declare (p : prod struct) : prod struct := fun s ss i r =>
  exists inner, p s inner i r /\ ss = inner ++ [s].

Section Structs.
  Variable StructDecl : prod struct.

  Definition StructRef : prod type :=
    as_ (fun s => TStruct (sname s)) (declare StructDecl) || as_ TStruct StructName.
  Definition ArrayBase : prod type :=
    as_ (fun n => TInt n None) IntType || as_ (fun _ => TChar) (tok "char") || StructRef.

  Definition FixedArray : prod member :=
    b <~ ArrayBase ;; gap1 ~~ n <~ Identifier ;; gap ~~ tok "[" ~~ s <~ Int ;; tok "]" ~~
    empty (MField n (TFixed b s)).
  Definition VarArray : prod member :=
    b <~ ArrayBase ;; gap1 ~~ n <~ Identifier ;; gap ~~ tok "[" ~~ l <~ such notConstant Len ;; tok "]" ~~
    empty (MField n (TVar b (Some l))).
  Definition Remainder : prod member :=
    b <~ ArrayBase ;; gap1 ~~ n <~ Identifier ;; gap ~~ tok "[" ~~ gap ~~ tok "]" ~~
    empty (MField n (TVar b None)).
  Definition IntField : prod member :=
    t <~ IntType ;; gap ~~ n <~ Identifier ;; gap ~~ c <~ maybe Constraint_ ;;
    empty (MField n (TInt t c)).
  Definition Position : prod member := tok "@ptr" ~~ gap1 ~~ n <~ Identifier ;; empty (MField n TPtr).
  Definition String_ : prod member := tok "nulterm" ~~ gap1 ~~ n <~ Identifier ;; empty (MField n TNul).
  Definition StructField : prod member :=
    t <~ StructRef ;; gap1 ~~ n <~ Identifier ;; empty (MField n t).
  Definition Field : prod member := FixedArray || VarArray || IntField || String_ || StructField.

  Definition ended {A} (p : prod A) : prod A := gap ~~ x <~ p ;; gap ~~ tok ";" ~~ empty x.

  Definition Extent : prod member := as_ (fun _ => MIgnore) (tok "...") || Remainder.
  Definition Fields : prod (list member) :=
    ms <~ star (ended Field) ;; e <~ maybe (ended Extent) ;;
    empty (ms ++ match e with Some m => [m] | None => [] end).
  Definition Body : prod (list member) :=
    ended (empty []) ||
    ended (as_ (fun _ => [MFail]) (tok "fail")) ||
    ended (as_ (fun _ => [MIgnore]) (tok "ignore")) ||
    Fields.
  Definition CaseLabel : prod (option intlist) :=
    as_ Some (listOf Range) || as_ (fun _ => None) (tok "default").
  Definition Case : prod ucase :=
    gap ~~ c <~ CaseLabel ;; gap ~~ tok ":" ~~ ms <~ Body ;; empty (UCase c ms).
  Definition Union : prod member :=
    tok "union" ~~ gap1 ~~ n <~ Identifier ;; gap ~~ tok "[" ~~ t <~ Ref ;; tok "]" ~~ gap ~~
    l <~ maybe (tok "with" ~~ gap1 ~~ tok "length" ~~ gap1 ~~ Len) ;; gap ~~
    tok "{" ~~ cs <~ star Case ;; gap ~~ tok "}" ~~ empty (MUnion n t l cs).

  Definition Member : prod member := Field || Position || Union.
  Definition Ending : prod member := Remainder || as_ (fun _ => MEOS) (tok "eos").
  Definition Struct : prod struct :=
    n <~ StructName ;; c <~ Contexts ;; gap ~~ tok "{" ~~ ms <~ star (ended Member) ;;
    e <~ maybe (ended Ending) ;; gap ~~ tok "}" ~~
    empty (mkStruct n c (Some (ms ++ match e with Some m => [m] | None => [] end))).
End Structs.

(** Structs with at most [n] levels of inline structs. *)
Fixpoint StructN (n : nat) : prod struct :=
  match n with
  | O => fun _ _ _ _ => False
  | S n => Struct (StructN n)
  end.
Definition StructDecl : prod struct := fun s ss i r => exists n, StructN n s ss i r.

(** ** Declarations *)
Inductive declaration : Type :=
| Const_ (c : constant)
| Context_ (c : context)
| Struct_ (s : struct)
| Pragma_ (p : pragma).

Definition ConstDecl : prod declaration :=
  tok "const" ~~ gap1 ~~ n <~ ConstIdentifier ;; gap ~~ tok "=" ~~ gap ~~ v <~ Literal ;; gap ~~ tok ";" ~~
  empty (Const_ (mkConst n v)).
Definition ContextField : prod (string * type) :=
  ended (t <~ IntType ;; gap1 ~~ n <~ Identifier ;; empty (n, TInt t None)).
Definition ContextDecl : prod declaration :=
  tok "context" ~~ gap1 ~~ n <~ Identifier ;; gap1 ~~ tok "{" ~~ fs <~ star ContextField ;; gap ~~ tok "}" ~~
  maybe (gap ~~ tok ";") ~~ empty (Context_ (mkCtx n fs)).
Definition StructDef : prod declaration :=
  s <~ StructDecl ;; maybe (gap ~~ tok ";") ~~ empty (Struct_ s).
Definition ExternDecl : prod declaration :=
  tok "extern" ~~ gap1 ~~ n <~ StructName ;; c <~ Contexts ;; gap ~~ tok ";" ~~
  empty (Struct_ (mkStruct n c None)).
Definition PragmaDecl : prod declaration :=
  tok "trunnel" ~~ gap1 ~~ n <~ Identifier ;; gap1 ~~ l <~ listOf Identifier ;; gap ~~ tok ";" ~~
  empty (Pragma_ (mkPragma n l)).
Definition Decl : prod declaration :=
  gap ~~ (ConstDecl || ContextDecl || StructDef || ExternDecl || PragmaDecl).
Definition File_ : prod (list declaration) :=
  ds <~ star Decl ;; gap ~~ empty ds.

(** The parsed file: declarations sorted by kind, inline structs last. *)
Definition fileOf (ds : list declaration) (inline : list struct) : file :=
  mkFile
    (flat_map (fun d => match d with Const_ c => [c] | _ => [] end) ds)
    (flat_map (fun d => match d with Context_ c => [c] | _ => [] end) ds)
    (flat_map (fun d => match d with Struct_ s => [s] | _ => [] end) ds ++ inline)
    (flat_map (fun d => match d with Pragma_ p => [p] | _ => [] end) ds).

(** A source text and the file it denotes. *)
Definition denotes (data : list ascii) (f : file) : Prop :=
  exists cs ds inline, Forall scalar cs /\ data = utf8 cs /\
    File_ ds inline cs [] /\ f = fileOf ds inline.
