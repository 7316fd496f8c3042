(** A typed reading of the grammar as recursive functions on runes.  It is an
    intermediate step: [PegRefine] shows that the engine of [PegModel] run on
    the rules of [PegGrammar] computes these functions. *)
From Coq Require Import ZArith String Ascii List Bool.
From Verif Require Import Base Ast PegModel PegGrammar.
Import ListNotations.
Open Scope string_scope.
Open Scope list_scope.
Open Scope Z_scope.

Record dst : Type := mkD { drest : list Z; dling : list struct; derrs : list perr }.

Inductive res (A : Type) : Type :=
| Fail (er : list perr)
| Done (a : A) (d : dst).
Arguments Fail {A} er.
Arguments Done {A} a d.

Definition P (A : Type) := dst -> res A.

Definition ret {A} (a : A) : P A := fun d => Done a d.
Definition andThen {A B} (p : P A) (k : A -> P B) : P B := fun d =>
  match p d with Fail er => Fail er | Done a d' => k a d' end.
Notation "x <-- p ;; k" := (andThen p (fun x => k))
  (at level 61, p at next level, right associativity).
Notation "p ;;; k" := (andThen p (fun _ => k)) (at level 61, right associativity).

Definition orElse {A} (p q : P A) : P A := fun d =>
  match p d with
  | Fail er => q (mkD (drest d) (dling d) er)
  | r => r
  end.
Notation "p <|> q" := (orElse p q) (at level 60, right associativity).

Definition opt {A} (p : P A) : P (option A) := fun d =>
  match p d with
  | Fail er => Done None (mkD (drest d) (dling d) er)
  | Done a d' => Done (Some a) d'
  end.

Fixpoint manyF {A} (n : nat) (p : P A) : P (list A) := fun d =>
  match n with
  | O => Done [] d
  | S n =>
      match p d with
      | Fail er => Done [] (mkD (drest d) (dling d) er)
      | Done a d' =>
          match manyF n p d' with
          | Fail er => Fail er
          | Done l d'' => Done (a :: l) d''
          end
      end
  end.
Definition many {A} (p : P A) : P (list A) := fun d => manyF (S (length (drest d))) p d.

Definition cls (chars : list Z) (ranges : list (Z * Z)) : P Z := fun d =>
  match drest d with
  | c :: r => if inClass chars ranges c then Done c (mkD r (dling d) (derrs d)) else Fail (derrs d)
  | [] => Fail (derrs d)
  end.

Definition any : P Z := fun d =>
  match drest d with
  | c :: r => Done c (mkD r (dling d) (derrs d))
  | [] => Fail (derrs d)
  end.

Definition codes (s : string) : list Z := map byte (textOf s).

Fixpoint stripPrefix (w r : list Z) : option (list Z) :=
  match w with
  | [] => Some r
  | c :: w' =>
      match r with
      | x :: r' => if x =? c then stripPrefix w' r' else None
      | [] => None
      end
  end.

Definition lit (s : string) : P unit := fun d =>
  match stripPrefix (codes s) (drest d) with
  | Some r => Done tt (mkD r (dling d) (derrs d))
  | None => Fail (derrs d)
  end.

Definition notP {A} (p : P A) : P unit := fun d =>
  match p d with
  | Fail er => Done tt (mkD (drest d) (dling d) er)
  | Done _ d' => Fail (derrs d')
  end.

Definition void {A} (p : P A) : P unit := x <-- p ;; ret tt.

(** The runes consumed by [p]. *)
Definition texted {A} (p : P A) : P (list Z) := fun d =>
  match p d with
  | Fail er => Fail er
  | Done _ d' => Done (firstn (length (drest d) - length (drest d')) (drest d)) d'
  end.

Definition fromCodes (l : list Z) : text := map (fun c => ascii_of_N (Z.to_N c)) l.
Definition nameOf (l : list Z) : string := stringOf (fromCodes l).

Definition record_ (e : option aerr) : P unit := fun d =>
  Done tt (match e with Some x => mkD (drest d) (dling d) (derrs d ++ [EAction x]) | None => d end).

(** ** Blanks, trunnel.pigeon:480-495 *)
Definition eol : P unit := lit newline.
Definition whitespace : P Z := cls [32; 9; 13] [].
Definition singleLine : P unit := lit "//" ;;; many (notP eol ;;; any) ;;; ret tt.
Definition multiLine : P unit := lit "/*" ;;; many (notP (lit "*/") ;;; any) ;;; lit "*/" ;;; ret tt.
Definition comment : P unit := multiLine <|> singleLine.
Definition skip1 : P unit := void whitespace <|> eol <|> comment.
Definition sk : P unit := void (many skip1).
Definition sk1 : P unit := skip1 ;;; many skip1 ;;; ret tt.

(** ** Names and numbers, trunnel.pigeon:395-477 *)
Definition ident : P string :=
  t <-- texted (cls [95] [(97, 122); (65, 90)] ;;; many (cls [95] [(97, 122); (65, 90); (48, 57)]) ;;; ret tt) ;;
  ret (nameOf t).
Definition cident : P string :=
  t <-- texted (cls [95] [(65, 90)] ;;; many (cls [95] [(65, 90); (48, 57)]) ;;; ret tt) ;;
  ret (nameOf t).
Definition some1 {A} (p : P A) : P unit := p ;;; many p ;;; ret tt.
Definition decimal : P unit := some1 (cls [] [(48, 57)]).
Definition hex : P unit := lit "0x" ;;; some1 (cls [] [(48, 57); (97, 102); (65, 70)]) ;;; ret tt.
Definition octal : P unit := lit "0" ;;; some1 (cls [] [(48, 55)]) ;;; ret tt.
Definition intLit : P Z :=
  t <-- texted (hex <|> octal <|> decimal) ;;
  record_ (snd (ParseInt (fromCodes t))) ;;;
  ret (fst (ParseInt (fromCodes t))).
Definition integerP : P integer :=
  (n <-- cident ;; ret (IConst n)) <|> (v <-- intLit ;; ret (ILit v)).
Definition idrefP : P idref :=
  s <-- opt (x <-- ident ;; lit "." ;;; ret x) ;;
  n <-- ident ;;
  ret (mkRef (match s with Some x => x | None => "" end) n).
Definition commaThen {A} (p : P A) : P A := sk ;;; lit "," ;;; sk ;;; p.
Definition identList : P (list string) :=
  n <-- ident ;; ns <-- many (commaThen ident) ;; ret (n :: ns).
Definition rangeP : P irange :=
  lo <-- integerP ;;
  hi <-- opt (sk ;;; lit ".." ;;; sk ;;; integerP) ;;
  ret (mkRange lo hi).
Definition intListP : P intlist :=
  m <-- rangeP ;; ms <-- many (commaThen rangeP) ;; ret (m :: ms).
Definition constraintP : P intlist :=
  lit "IN" ;;; sk1 ;;; lit "[" ;;; sk ;;; l <-- intListP ;; sk ;;; lit "]" ;;; ret l.
Definition sizeP : P Z :=
  (lit "8" ;;; ret 8) <|> (lit "16" ;;; ret 16) <|> (lit "32" ;;; ret 32) <|> (lit "64" ;;; ret 64).
Definition intTypeP : P Z := lit "u" ;;; sizeP.
Definition leftoverP : P integer := lit "..-" ;;; integerP.
Definition lengthP : P lconstraint :=
  (i <-- leftoverP ;; ret (LLeftover i)) <|> (r <-- idrefP ;; ret (LRef r)).

(** ** Structs, trunnel.pigeon:116-393 *)
Definition structIdent : P string := lit "struct" ;;; sk1 ;;; ident.
Definition contextRefs : P (list string) := lit "with" ;;; sk1 ;;; lit "context" ;;; sk1 ;;; identList.
Definition optContexts : P (list string) :=
  c <-- opt (sk1 ;;; contextRefs) ;; ret (match c with Some l => l | None => [] end).

Definition linger (s : struct) : P unit := fun d =>
  Done tt (mkD (drest d) (dling d ++ [s]) (derrs d)).

Section Members.
  (** The rule StructDecl, which is recursive. *)
  Variable structDecl : P struct.

  Definition structRef : P type :=
    (s <-- structDecl ;; linger s ;;; ret (TStruct (sname s))) <|>
    (n <-- structIdent ;; ret (TStruct n)).
  Definition arrayBase : P type :=
    (sz <-- intTypeP ;; ret (TInt sz None)) <|> (lit "char" ;;; ret TChar) <|> structRef.
  Definition fixedArray : P member :=
    b <-- arrayBase ;; sk1 ;;; n <-- ident ;; sk ;;; lit "[" ;;; s <-- integerP ;; lit "]" ;;;
    ret (MField n (TFixed b s)).
  Definition varArray : P member :=
    b <-- arrayBase ;; sk1 ;;; n <-- ident ;; sk ;;; lit "[" ;;; l <-- lengthP ;; lit "]" ;;;
    ret (MField n (TVar b (Some l))).
  Definition remainder : P member :=
    b <-- arrayBase ;; sk1 ;;; n <-- ident ;; sk ;;; lit "[" ;;; sk ;;; lit "]" ;;;
    ret (MField n (TVar b None)).
  Definition arrayP : P member := fixedArray <|> varArray.
  Definition smInteger : P member :=
    t <-- intTypeP ;; sk ;;; n <-- ident ;; sk ;;; c <-- opt constraintP ;;
    ret (MField n (TInt t c)).
  Definition smPosition : P member := lit "@ptr" ;;; sk1 ;;; n <-- ident ;; ret (MField n TPtr).
  Definition smString : P member := lit "nulterm" ;;; sk1 ;;; n <-- ident ;; ret (MField n TNul).
  Definition smStruct : P member := t <-- structRef ;; sk1 ;;; n <-- ident ;; ret (MField n t).

  Definition extent : P member :=
    (lit "..." ;;; sk ;;; lit ";" ;;; ret MIgnore) <|>
    (r <-- remainder ;; sk ;;; lit ";" ;;; ret r).
  Definition unionField : P member :=
    sk ;;; m <-- (arrayP <|> smInteger <|> smString <|> smStruct) ;; sk ;;; lit ";" ;;; ret m.
  Definition unionFields : P (list member) :=
    ms <-- many unionField ;; sk ;;; e <-- opt extent ;;
    ret (ms ++ match e with Some m => [m] | None => [] end).
  Definition unionBody : P (list member) :=
    (sk ;;; lit ";" ;;; ret []) <|>
    (lit "fail" ;;; sk ;;; lit ";" ;;; ret [MFail]) <|>
    (lit "ignore" ;;; sk ;;; lit ";" ;;; ret [MIgnore]) <|>
    unionFields.
  Definition unionCase : P (option intlist) :=
    (l <-- intListP ;; ret (Some l)) <|> (lit "default" ;;; ret None).
  Definition unionMember : P ucase :=
    sk ;;; c <-- unionCase ;; sk ;;; lit ":" ;;; sk ;;; ms <-- unionBody ;; sk ;;;
    ret (UCase c ms).
  Definition unionLength : P lconstraint := lit "with" ;;; sk1 ;;; lit "length" ;;; sk1 ;;; lengthP.
  Definition smUnion : P member :=
    lit "union" ;;; sk1 ;;; n <-- ident ;; sk ;;; lit "[" ;;; t <-- idrefP ;; lit "]" ;;; sk ;;;
    l <-- opt unionLength ;; sk ;;; lit "{" ;;; sk ;;; cs <-- many unionMember ;; sk ;;; lit "}" ;;;
    ret (MUnion n t l cs).

  Definition structMember : P member :=
    sk ;;; m <-- (arrayP <|> smInteger <|> smPosition <|> smString <|> smStruct <|> smUnion) ;;
    sk ;;; lit ";" ;;; ret m.
  Definition structEnding : P member :=
    sk ;;; e <-- (remainder <|> (lit "eos" ;;; ret MEOS)) ;; sk ;;; lit ";" ;;; ret e.
  Definition structBody : P struct :=
    n <-- structIdent ;; c <-- optContexts ;; sk ;;; lit "{" ;;; ms <-- many structMember ;; sk ;;;
    e <-- opt structEnding ;; sk ;;; lit "}" ;;;
    ret (mkStruct n c (Some (ms ++ match e with Some m => [m] | None => [] end))).
End Members.

(** The recursion through inline structs; [n] bounds the depth. *)
Fixpoint structDecl (n : nat) : P struct :=
  match n with
  | O => fun d => Fail (derrs d)
  | S n => structBody (structDecl n)
  end.

(** ** Declarations, trunnel.pigeon:24-120 *)
Inductive decl : Type :=
| DConst (c : constant)
| DCtx (c : context)
| DStruct (s : struct)
| DPragma (p : pragma).

Definition constP : P decl :=
  lit "const" ;;; sk1 ;;; n <-- cident ;; sk ;;; lit "=" ;;; sk ;;; v <-- intLit ;; sk ;;; lit ";" ;;;
  ret (DConst (mkConst n v)).
Definition ctxMember : P (string * type) :=
  sk ;;; t <-- intTypeP ;; sk1 ;;; n <-- ident ;; sk ;;; lit ";" ;;; sk ;;; ret (n, TInt t None).
Definition ctxP : P decl :=
  lit "context" ;;; sk1 ;;; n <-- ident ;; sk1 ;;; lit "{" ;;; sk ;;; fs <-- many ctxMember ;; sk ;;;
  lit "}" ;;; sk ;;; opt (lit ";") ;;; ret (DCtx (mkCtx n fs)).
Definition structP (n : nat) : P decl :=
  s <-- structDecl n ;; sk ;;; opt (lit ";") ;;; ret (DStruct s).
Definition externP : P decl :=
  lit "extern" ;;; sk1 ;;; n <-- structIdent ;; c <-- optContexts ;; sk ;;; lit ";" ;;;
  ret (DStruct (mkStruct n c None)).
Definition pragmaP : P decl :=
  lit "trunnel" ;;; sk1 ;;; n <-- ident ;; sk1 ;;; l <-- identList ;; sk ;;; lit ";" ;;;
  ret (DPragma (mkPragma n l)).
Definition declP (n : nat) : P decl :=
  sk ;;; x <-- (constP <|> ctxP <|> structP n <|> externP <|> pragmaP) ;; sk ;;; ret x.

Definition pick {A} (f : decl -> list A) (ds : list decl) : list A := flat_map f ds.
Definition fileOf (ds : list decl) (inline : list struct) : file :=
  mkFile
    (pick (fun d => match d with DConst c => [c] | _ => [] end) ds)
    (pick (fun d => match d with DCtx c => [c] | _ => [] end) ds)
    (pick (fun d => match d with DStruct s => [s] | _ => [] end) ds ++ inline)
    (pick (fun d => match d with DPragma p => [p] | _ => [] end) ds).

Definition lingering : P (list struct) := fun d => Done (dling d) d.
Definition fileP (n : nat) : P file :=
  sk ;;; ds <-- many (declP n) ;; sk ;;; notP any ;;; l <-- lingering ;; ret (fileOf ds l).
