(** The grammar of parse/trunnel.pigeon as compiled into
    parse/internal/parser/gen-parser.go: actions, rules and parse/parse.go. *)
From Coq Require Import ZArith String Ascii List Bool.
From Verif Require Import Base Ast PegModel.
Import ListNotations.
Open Scope string_scope.
Open Scope list_scope.
Open Scope Z_scope.

(** * strconv

    strconv.ParseUint(s, base, 64) after the prefix has been removed: the digits
    from the left, with the overflow tests of the standard library. *)
Definition digit (c : ascii) : option Z :=
  let b := byte c in
  if inR 48 57 b then Some (b - 48)
  else if inR 97 122 b then Some (b - 97 + 10)
  else if inR 65 90 b then Some (b - 65 + 10)
  else None.

Fixpoint digitsLoop (base n : Z) (t : text) : Z * option aerr :=
  match t with
  | [] => (n, None)
  | c :: t' =>
      match digit c with
      | None => (0, Some ESyntax)
      | Some d =>
          if base <=? d then (0, Some ESyntax)
          else if max64 / base + 1 <=? n then (max64, Some ERange)
          else
            let n' := n * base in
            let n1 := u64 (n' + d) in
            if (n1 <? n') || (max64 <? n1) then (max64, Some ERange)
            else digitsLoop base n1 t'
      end
  end.

(** strconv.ParseInt(s, 0, 64) for texts without sign and without underscores;
    the prefixes "0b" and "0o" are left out.  The grammar offers no such text. *)
Definition ParseInt (t : text) : Z * option aerr :=
  let '(base, ds) :=
    match t with
    | c0 :: r0 =>
        if byte c0 =? 48 then
          match r0 with
          | c1 :: _ :: _ =>
              if (byte c1 =? 120) || (byte c1 =? 88) then (16, tl r0) else (8, r0)
          | _ => (8, r0)
          end
        else (10, t)
    | [] => (10, t)
    end in
  match t with
  | [] => (0, Some ESyntax)
  | _ =>
      match digitsLoop base 0 ds with
      | (_, Some ESyntax) => (0, Some ESyntax)
      | (un, er) =>
          if two63 <=? un then (two63 - 1, Some ERange) else (un, er)
      end
  end.

(** * Type assertions *)
Definition badAssertion {A} : outcome A := Panic "interface conversion".
Definition asString (v : value) : outcome string :=
  match v with VString s => Ok s | _ => badAssertion end.
Definition asInt64 (v : value) : outcome Z :=
  match v with VInt64 z => Ok z | _ => badAssertion end.
Definition asSlice (v : value) : outcome (list value) :=
  match v with VSlice l => Ok l | _ => badAssertion end.
Definition asStrings (v : value) : outcome (list string) :=
  match v with VStrings l => Ok l | _ => badAssertion end.
Definition asMember (v : value) : outcome member :=
  match v with VMember m => Ok m | _ => badAssertion end.
Definition asMembers (v : value) : outcome (list member) :=
  match v with VMembers l => Ok l | _ => badAssertion end.
Definition asField (v : value) : outcome (string * type) :=
  match v with VMember (MField n t) => Ok (n, t) | _ => badAssertion end.
Definition asIntType (v : value) : outcome Z :=
  match v with VType (TInt sz None) => Ok sz | _ => badAssertion end.
Definition asBase (v : value) : outcome type :=
  match v with VType t => Ok t | _ => badAssertion end.
Definition asStructRef (v : value) : outcome type :=
  match v with VType (TStruct n) => Ok (TStruct n) | _ => badAssertion end.
Definition asStruct (v : value) : outcome struct :=
  match v with VStruct s => Ok s | _ => badAssertion end.
Definition asInteger (v : value) : outcome integer :=
  match v with VInteger i => Ok i | _ => badAssertion end.
Definition asIntList (v : value) : outcome intlist :=
  match v with VIntList l => Ok l | _ => badAssertion end.
Definition asRange (v : value) : outcome irange :=
  match v with VRange r => Ok r | _ => badAssertion end.
Definition asRef (v : value) : outcome idref :=
  match v with VRef r => Ok r | _ => badAssertion end.
Definition asLength (v : value) : outcome lconstraint :=
  match v with VRef r => Ok (LRef r) | VLeftover i => Ok (LLeftover i) | _ => badAssertion end.
Definition asCase (v : value) : outcome ucase :=
  match v with VCase c => Ok c | _ => badAssertion end.
Definition asText (v : value) : outcome text :=
  match v with VBytes t => Ok t | _ => badAssertion end.

(** [l[i]]. *)
Definition at_ (i : nat) (l : list value) : outcome value :=
  match nth_error l i with Some v => Ok v | None => Panic "index out of range" end.

(** [v.([]interface{})[i]]. *)
Definition part (i : nat) (v : value) : outcome value := l <- asSlice v ;; at_ i l.

Definition isNil (v : value) : bool := match v with VNil => true | _ => false end.
(** [if v != nil { ... }]. *)
Definition ifSet {A} (v : value) (none : A) (k : value -> outcome A) : outcome A :=
  if isNil v then Ok none else k v.

Definition give (v : value) : acted := Ok (v, None).
(** Actions that return one of their labels. *)
Definition pass (l : string) : action := fun _ f _ => give (label l f).

(** * Actions *)

(** gen-parser.go:25-31; the value under the key is always a slice. *)
Definition addLingeringDeclaration (d : value) (st : list value) : list value := st ++ [d].

(** gen-parser.go:2306-2325, loop over the declarations. *)
Fixpoint sortDecls (ds : list value) (f : file) : file * option aerr :=
  match ds with
  | [] => (f, None)
  | VConst c :: ds' =>
      sortDecls ds' (mkFile (fconstants f ++ [c]) (fcontexts f) (fstructs f) (fpragmas f))
  | VCtx c :: ds' =>
      sortDecls ds' (mkFile (fconstants f) (fcontexts f ++ [c]) (fstructs f) (fpragmas f))
  | VStruct c :: ds' =>
      sortDecls ds' (mkFile (fconstants f) (fcontexts f) (fstructs f ++ [c]) (fpragmas f))
  | VPragma c :: ds' =>
      sortDecls ds' (mkFile (fconstants f) (fcontexts f) (fstructs f) (fpragmas f ++ [c]))
  | _ :: _ => (f, Some EUnknownDecl)
  end.

(** gen-parser.go:2306-2325. *)
Definition onFile1 : action := fun _ f st =>
  ds <- asSlice (label "ds" f) ;;
  match sortDecls (ds ++ st) (mkFile [] [] [] []) with
  | (fl, None) => give (VFile fl)
  | (_, Some e) => Ok (VNil, Some e)
  end.

(** gen-parser.go:2333-2335. *)
Definition onDeclaration1 : action := pass "d".

(** gen-parser.go:2343-2348. *)
Definition onConstDeclaration1 : action := fun _ f _ =>
  n <- asString (label "n" f) ;;
  v <- asInt64 (label "v" f) ;;
  give (VConst (mkConst n v)).

(** gen-parser.go:2356-2365. *)
Definition onContextDeclaration1 : action := fun _ f _ =>
  l <- asSlice (label "fs" f) ;;
  fs <- mapM asField l ;;
  n <- asString (label "n" f) ;;
  give (VCtx (mkCtx n fs)).

(** gen-parser.go:2373-2378. *)
Definition onContextMember1 : action := fun _ f _ =>
  sz <- asIntType (label "t" f) ;;
  n <- asString (label "n" f) ;;
  give (VMember (MField n (TInt sz None))).

(** gen-parser.go:2386-2388. *)
Definition onStructDeclaration1 : action := pass "s".

(** gen-parser.go:2396-2415. *)
Definition onStructDecl1 : action := fun _ f _ =>
  l <- asSlice (label "ms" f) ;;
  ms <- mapM asMember l ;;
  end_ <- ifSet (label "e" f) [] (fun e => m <- asMember e ;; Ok [m]) ;;
  n <- asString (label "n" f) ;;
  ctx <- ifSet (label "ctx" f) [] (fun c => v <- part 1 c ;; asStrings v) ;;
  give (VStruct (mkStruct n ctx (Some (ms ++ end_)))).

(** gen-parser.go:2423-2425. *)
Definition onStructIdentifier1 : action := pass "n".

(** gen-parser.go:2433-2441. *)
Definition onExternDeclaration1 : action := fun _ f _ =>
  n <- asString (label "n" f) ;;
  ctx <- ifSet (label "ctx" f) [] (fun c => v <- part 1 c ;; asStrings v) ;;
  give (VStruct (mkStruct n ctx None)).

(** gen-parser.go:2449-2454. *)
Definition onPragmaDeclaration1 : action := fun _ f _ =>
  n <- asString (label "n" f) ;;
  opts <- asStrings (label "opts" f) ;;
  give (VPragma (mkPragma n opts)).

(** gen-parser.go:2462-2464, 2472-2474, 2482-2484. *)
Definition onContextRefs1 : action := pass "ns".
Definition onStructMember1 : action := pass "m".
Definition onStructEnding1 : action := pass "e".

(** gen-parser.go:2492-2494. *)
Definition onStructEOS1 : action := fun _ _ _ => give (VMember MEOS).

(** gen-parser.go:2502-2504. *)
Definition onSMArray1 : action := pass "a".

(** gen-parser.go:2512-2520. *)
Definition onSMFixedArray1 : action := fun _ f _ =>
  n <- asString (label "n" f) ;;
  b <- asBase (label "b" f) ;;
  s <- asInteger (label "s" f) ;;
  give (VMember (MField n (TFixed b s))).

(** gen-parser.go:2528-2536. *)
Definition onSMVarArray1 : action := fun _ f _ =>
  n <- asString (label "n" f) ;;
  b <- asBase (label "b" f) ;;
  l <- asLength (label "l" f) ;;
  give (VMember (MField n (TVar b (Some l)))).

(** gen-parser.go:2544-2546. *)
Definition onLengthConstraint1 : action := pass "l".

(** gen-parser.go:2554-2556. *)
Definition onLeftover1 : action := fun _ f _ =>
  i <- asInteger (label "i" f) ;;
  give (VLeftover i).

(** gen-parser.go:2564-2572. *)
Definition onSMRemainder1 : action := fun _ f _ =>
  n <- asString (label "n" f) ;;
  b <- asBase (label "b" f) ;;
  give (VMember (MField n (TVar b None))).

(** gen-parser.go:2580-2582. *)
Definition onArrayBase1 : action := pass "t".

(** gen-parser.go:2590-2599. *)
Definition onSMInteger1 : action := fun _ f _ =>
  sz <- asIntType (label "t" f) ;;
  cst <- ifSet (label "cst" f) None (fun c => l <- asIntList c ;; Ok (Some l)) ;;
  n <- asString (label "n" f) ;;
  give (VMember (MField n (TInt sz cst))).

(** gen-parser.go:2607-2612. *)
Definition onSMPosition1 : action := fun _ f _ =>
  n <- asString (label "n" f) ;;
  give (VMember (MField n TPtr)).

(** gen-parser.go:2620-2625. *)
Definition onSMString1 : action := fun _ f _ =>
  n <- asString (label "n" f) ;;
  give (VMember (MField n TNul)).

(** gen-parser.go:2633-2638. *)
Definition onSMStruct1 : action := fun _ f _ =>
  n <- asString (label "n" f) ;;
  t <- asStructRef (label "s" f) ;;
  give (VMember (MField n t)).

(** gen-parser.go:2646-2660. *)
Definition onSMUnion1 : action := fun _ f _ =>
  l <- asSlice (label "cs" f) ;;
  cs <- mapM asCase l ;;
  n <- asString (label "n" f) ;;
  t <- asRef (label "t" f) ;;
  len <- ifSet (label "l" f) None (fun v => l <- asLength v ;; Ok (Some l)) ;;
  give (VMember (MUnion n t len cs)).

(** gen-parser.go:2668-2670. *)
Definition onUnionLength1 : action := pass "l".

(** gen-parser.go:2678-2687. *)
Definition onUnionMember1 : action := fun _ f _ =>
  ms <- ifSet (label "fs" f) [] asMembers ;;
  c <- ifSet (label "cse" f) None (fun v => l <- asIntList v ;; Ok (Some l)) ;;
  give (VCase (UCase c ms)).

(** gen-parser.go:2695-2697, 2705-2707. *)
Definition onUnionCase2 : action := pass "l".
Definition onUnionCase5 : action := fun _ _ _ => give VNil.

(** gen-parser.go:2715-2717, 2725-2727, 2735-2737, 2745-2747. *)
Definition onUnionBody2 : action := fun _ _ _ => give VNil.
Definition onUnionBody6 : action := fun _ _ _ => give (VMembers [MFail]).
Definition onUnionBody11 : action := fun _ _ _ => give (VMembers [MIgnore]).
Definition onUnionBody16 : action := pass "fs".

(** gen-parser.go:2755-2764. *)
Definition onUnionFields1 : action := fun _ f _ =>
  l <- asSlice (label "ms" f) ;;
  ms <- mapM asMember l ;;
  end_ <- ifSet (label "e" f) [] (fun e => m <- asMember e ;; Ok [m]) ;;
  give (VMembers (ms ++ end_)).

(** gen-parser.go:2772-2774, 2782-2784, 2792-2794. *)
Definition onUnionField1 : action := pass "m".
Definition onExtentSpec2 : action := fun _ _ _ => give (VMember MIgnore).
Definition onExtentSpec7 : action := pass "r".

(** gen-parser.go:2802-2805: state code. *)
Definition onStructRef6 : stateCode := fun f st => addLingeringDeclaration (label "s" f) st.

(** gen-parser.go:2813-2815, 2823-2825. *)
Definition onStructRef2 : action := fun _ f _ =>
  s <- asStruct (label "s" f) ;;
  give (VType (TStruct (sname s))).
Definition onStructRef7 : action := fun _ f _ =>
  n <- asString (label "n" f) ;;
  give (VType (TStruct n)).

(** gen-parser.go:2833-2835. *)
Definition onCharType1 : action := fun _ _ _ => give (VType TChar).

(** gen-parser.go:2843-2846; [strconv.Atoi] on "8", "16", "32" and "64". *)
Definition onIntType1 : action := fun _ f _ =>
  b <- asText (label "b" f) ;;
  match digitsLoop 10 0 b with
  | (s, er) => Ok (VType (TInt s None), er)
  end.

(** gen-parser.go:2854-2856. *)
Definition onIntConstraint1 : action := pass "l".

(** gen-parser.go:2864-2870. *)
Definition onIntList1 : action := fun _ f _ =>
  m <- asRange (label "m" f) ;;
  l <- asSlice (label "ms" f) ;;
  ms <- mapM (fun v => x <- part 3 v ;; asRange x) l ;;
  give (VIntList (m :: ms)).

(** gen-parser.go:2878-2886. *)
Definition onIntListMember1 : action := fun _ f _ =>
  lo <- asInteger (label "lo" f) ;;
  hi <- ifSet (label "hi" f) None
          (fun v => x <- part 3 v ;; i <- asInteger x ;; Ok (Some i)) ;;
  give (VRange (mkRange lo hi)).

(** gen-parser.go:2894-2896, 2904-2906, 2914-2916. *)
Definition onInteger1 : action := pass "i".
Definition onIntegerConstRef1 : action := fun _ f _ =>
  n <- asString (label "n" f) ;;
  give (VInteger (IConst n)).
Definition onIntegerLiteral1 : action := fun _ f _ =>
  v <- asInt64 (label "v" f) ;;
  give (VInteger (ILit v)).

(** gen-parser.go:2924-2932. *)
Definition onIDRef1 : action := fun _ f _ =>
  n <- asString (label "n" f) ;;
  sc <- ifSet (label "s" f) "" (fun v => x <- part 0 v ;; asString x) ;;
  give (VRef (mkRef sc n)).

(** gen-parser.go:2940-2946. *)
Definition onIdentifierList1 : action := fun _ f _ =>
  n <- asString (label "n" f) ;;
  l <- asSlice (label "ns" f) ;;
  ns <- mapM (fun v => x <- part 3 v ;; asString x) l ;;
  give (VStrings (n :: ns)).

(** gen-parser.go:2954-2956, 2964-2966. *)
Definition onIdentifier1 : action := fun t _ _ => give (VString (stringOf t)).
Definition onConstIdentifier1 : action := fun t _ _ => give (VString (stringOf t)).

(** gen-parser.go:2974-2976. *)
Definition onIntLiteral1 : action := fun t _ _ =>
  match ParseInt t with (v, er) => Ok (VInt64 v, er) end.

(** * Rules *)
Definition newline : string := String (ascii_of_nat 10) "".

(** gen-parser.go:42-77. *)
Definition rFile : expr :=
  (EAct onFile1
    (ESeq [(ERule "_");
     (ELabel "ds" (EStar (ERule "Declaration")));
     (ERule "_");
     (ERule "EOF")])).

(** gen-parser.go:78-127. *)
Definition rDeclaration : expr :=
  (EAct onDeclaration1
    (ESeq [(ERule "_");
     (ELabel "d" (EChoice [(ERule "ConstDeclaration");
        (ERule "ContextDeclaration");
        (ERule "StructDeclaration");
        (ERule "ExternDeclaration");
        (ERule "PragmaDeclaration")]));
     (ERule "_")])).

(** gen-parser.go:128-187. *)
Definition rConstDeclaration : expr :=
  (EAct onConstDeclaration1
    (ESeq [(ELit "const");
     (ERule "__");
     (ELabel "n" (ERule "ConstIdentifier"));
     (ERule "_");
     (ELit "=");
     (ERule "_");
     (ELabel "v" (ERule "IntLiteral"));
     (ERule "_");
     (ELit ";")])).

(** gen-parser.go:188-262. *)
Definition rContextDeclaration : expr :=
  (EAct onContextDeclaration1
    (ESeq [(ELit "context");
     (ERule "__");
     (ELabel "n" (ERule "Identifier"));
     (ERule "__");
     (ELit "{");
     (ERule "_");
     (ELabel "fs" (EStar (ERule "ContextMember")));
     (ERule "_");
     (ELit "}");
     (ERule "_");
     (EOpt (ELit ";"))])).

(** gen-parser.go:263-312. *)
Definition rContextMember : expr :=
  (EAct onContextMember1
    (ESeq [(ERule "_");
     (ELabel "t" (ERule "IntType"));
     (ERule "__");
     (ELabel "n" (ERule "Identifier"));
     (ERule "_");
     (ELit ";");
     (ERule "_")])).

(** gen-parser.go:313-345. *)
Definition rStructDeclaration : expr :=
  (EAct onStructDeclaration1
    (ESeq [(ELabel "s" (ERule "StructDecl"));
     (ERule "_");
     (EOpt (ELit ";"))])).

(** gen-parser.go:346-430. *)
Definition rStructDecl : expr :=
  (EAct onStructDecl1
    (ESeq [(ELabel "n" (ERule "StructIdentifier"));
     (ELabel "ctx" (EOpt (ESeq [(ERule "__");
         (ERule "ContextRefs")])));
     (ERule "_");
     (ELit "{");
     (ELabel "ms" (EStar (ERule "StructMember")));
     (ERule "_");
     (ELabel "e" (EOpt (ERule "StructEnding")));
     (ERule "_");
     (ELit "}")])).

(** gen-parser.go:431-460. *)
Definition rStructIdentifier : expr :=
  (EAct onStructIdentifier1
    (ESeq [(ELit "struct");
     (ERule "__");
     (ELabel "n" (ERule "Identifier"))])).

(** gen-parser.go:461-519. *)
Definition rExternDeclaration : expr :=
  (EAct onExternDeclaration1
    (ESeq [(ELit "extern");
     (ERule "__");
     (ELabel "n" (ERule "StructIdentifier"));
     (ELabel "ctx" (EOpt (ESeq [(ERule "__");
         (ERule "ContextRefs")])));
     (ERule "_");
     (ELit ";")])).

(** gen-parser.go:520-570. *)
Definition rPragmaDeclaration : expr :=
  (EAct onPragmaDeclaration1
    (ESeq [(ELit "trunnel");
     (ERule "__");
     (ELabel "n" (ERule "Identifier"));
     (ERule "__");
     (ELabel "opts" (ERule "IdentifierList"));
     (ERule "_");
     (ELit ";")])).

(** gen-parser.go:571-609. *)
Definition rContextRefs : expr :=
  (EAct onContextRefs1
    (ESeq [(ELit "with");
     (ERule "__");
     (ELit "context");
     (ERule "__");
     (ELabel "ns" (ERule "IdentifierList"))])).

(** gen-parser.go:610-668. *)
Definition rStructMember : expr :=
  (EAct onStructMember1
    (ESeq [(ERule "_");
     (ELabel "m" (EChoice [(ERule "SMArray");
        (ERule "SMInteger");
        (ERule "SMPosition");
        (ERule "SMString");
        (ERule "SMStruct");
        (ERule "SMUnion")]));
     (ERule "_");
     (ELit ";")])).

(** gen-parser.go:669-711. *)
Definition rStructEnding : expr :=
  (EAct onStructEnding1
    (ESeq [(ERule "_");
     (ELabel "e" (EChoice [(ERule "SMRemainder");
        (ERule "StructEOS")]));
     (ERule "_");
     (ELit ";")])).

(** gen-parser.go:712-724. *)
Definition rStructEOS : expr :=
  (EAct onStructEOS1
    (ELit "eos")).

(** gen-parser.go:725-749. *)
Definition rSMArray : expr :=
  (EAct onSMArray1
    (ELabel "a" (EChoice [(ERule "SMFixedArray");
       (ERule "SMVarArray")]))).

(** gen-parser.go:750-804. *)
Definition rSMFixedArray : expr :=
  (EAct onSMFixedArray1
    (ESeq [(ELabel "b" (ERule "ArrayBase"));
     (ERule "__");
     (ELabel "n" (ERule "Identifier"));
     (ERule "_");
     (ELit "[");
     (ELabel "s" (ERule "Integer"));
     (ELit "]")])).

(** gen-parser.go:805-859. *)
Definition rSMVarArray : expr :=
  (EAct onSMVarArray1
    (ESeq [(ELabel "b" (ERule "ArrayBase"));
     (ERule "__");
     (ELabel "n" (ERule "Identifier"));
     (ERule "_");
     (ELit "[");
     (ELabel "l" (ERule "LengthConstraint"));
     (ELit "]")])).

(** gen-parser.go:860-884. *)
Definition rLengthConstraint : expr :=
  (EAct onLengthConstraint1
    (ELabel "l" (EChoice [(ERule "Leftover");
       (ERule "IDRef")]))).

(** gen-parser.go:885-910. *)
Definition rLeftover : expr :=
  (EAct onLeftover1
    (ESeq [(ELit "..-");
     (ELabel "i" (ERule "Integer"))])).

(** gen-parser.go:911-961. *)
Definition rSMRemainder : expr :=
  (EAct onSMRemainder1
    (ESeq [(ELabel "b" (ERule "ArrayBase"));
     (ERule "__");
     (ELabel "n" (ERule "Identifier"));
     (ERule "_");
     (ELit "[");
     (ERule "_");
     (ELit "]")])).

(** gen-parser.go:962-990. *)
Definition rArrayBase : expr :=
  (EAct onArrayBase1
    (ELabel "t" (EChoice [(ERule "IntType");
       (ERule "CharType");
       (ERule "StructRef")]))).

(** gen-parser.go:991-1038. *)
Definition rSMInteger : expr :=
  (EAct onSMInteger1
    (ESeq [(ELabel "t" (ERule "IntType"));
     (ERule "_");
     (ELabel "n" (ERule "Identifier"));
     (ERule "_");
     (ELabel "cst" (EOpt (ERule "IntConstraint")))])).

(** gen-parser.go:1039-1068. *)
Definition rSMPosition : expr :=
  (EAct onSMPosition1
    (ESeq [(ELit "@ptr");
     (ERule "__");
     (ELabel "n" (ERule "Identifier"))])).

(** gen-parser.go:1069-1098. *)
Definition rSMString : expr :=
  (EAct onSMString1
    (ESeq [(ELit "nulterm");
     (ERule "__");
     (ELabel "n" (ERule "Identifier"))])).

(** gen-parser.go:1099-1131. *)
Definition rSMStruct : expr :=
  (EAct onSMStruct1
    (ESeq [(ELabel "s" (ERule "StructRef"));
     (ERule "__");
     (ELabel "n" (ERule "Identifier"))])).

(** gen-parser.go:1132-1231. *)
Definition rSMUnion : expr :=
  (EAct onSMUnion1
    (ESeq [(ELit "union");
     (ERule "__");
     (ELabel "n" (ERule "Identifier"));
     (ERule "_");
     (ELit "[");
     (ELabel "t" (ERule "IDRef"));
     (ELit "]");
     (ERule "_");
     (ELabel "l" (EOpt (ERule "UnionLength")));
     (ERule "_");
     (ELit "{");
     (ERule "_");
     (ELabel "cs" (EStar (ERule "UnionMember")));
     (ERule "_");
     (ELit "}")])).

(** gen-parser.go:1232-1270. *)
Definition rUnionLength : expr :=
  (EAct onUnionLength1
    (ESeq [(ELit "with");
     (ERule "__");
     (ELit "length");
     (ERule "__");
     (ELabel "l" (ERule "LengthConstraint"))])).

(** gen-parser.go:1271-1320. *)
Definition rUnionMember : expr :=
  (EAct onUnionMember1
    (ESeq [(ERule "_");
     (ELabel "cse" (ERule "UnionCase"));
     (ERule "_");
     (ELit ":");
     (ERule "_");
     (ELabel "fs" (ERule "UnionBody"));
     (ERule "_")])).

(** gen-parser.go:1321-1350. *)
Definition rUnionCase : expr :=
  (EChoice [(EAct onUnionCase2
     (ELabel "l" (ERule "IntList")));
    (EAct onUnionCase5
     (ELit "default"))]).

(** gen-parser.go:1351-1435. *)
Definition rUnionBody : expr :=
  (EChoice [(EAct onUnionBody2
     (ESeq [(ERule "_");
      (ELit ";")]));
    (EAct onUnionBody6
     (ESeq [(ELit "fail");
      (ERule "_");
      (ELit ";")]));
    (EAct onUnionBody11
     (ESeq [(ELit "ignore");
      (ERule "_");
      (ELit ";")]));
    (EAct onUnionBody16
     (ELabel "fs" (ERule "UnionFields")))]).

(** gen-parser.go:1436-1474. *)
Definition rUnionFields : expr :=
  (EAct onUnionFields1
    (ESeq [(ELabel "ms" (EStar (ERule "UnionField")));
     (ERule "_");
     (ELabel "e" (EOpt (ERule "ExtentSpec")))])).

(** gen-parser.go:1475-1525. *)
Definition rUnionField : expr :=
  (EAct onUnionField1
    (ESeq [(ERule "_");
     (ELabel "m" (EChoice [(ERule "SMArray");
        (ERule "SMInteger");
        (ERule "SMString");
        (ERule "SMStruct")]));
     (ERule "_");
     (ELit ";")])).

(** gen-parser.go:1526-1583. *)
Definition rExtentSpec : expr :=
  (EChoice [(EAct onExtentSpec2
     (ESeq [(ELit "...");
      (ERule "_");
      (ELit ";")]));
    (EAct onExtentSpec7
     (ESeq [(ELabel "r" (ERule "SMRemainder"));
      (ERule "_");
      (ELit ";")]))]).

(** gen-parser.go:1584-1625. *)
Definition rStructRef : expr :=
  (EChoice [(EAct onStructRef2
     (ESeq [(ELabel "s" (ERule "StructDecl"));
      (EState onStructRef6)]));
    (EAct onStructRef7
     (ELabel "n" (ERule "StructIdentifier")))]).

(** gen-parser.go:1626-1638. *)
Definition rCharType : expr :=
  (EAct onCharType1
    (ELit "char")).

(** gen-parser.go:1639-1685. *)
Definition rIntType : expr :=
  (EAct onIntType1
    (ESeq [(ELit "u");
     (ELabel "b" (EChoice [(ELit "8");
        (ELit "16");
        (ELit "32");
        (ELit "64")]))])).

(** gen-parser.go:1686-1733. *)
Definition rIntConstraint : expr :=
  (EAct onIntConstraint1
    (ESeq [(ELit "IN");
     (ERule "__");
     (ELit "[");
     (ERule "_");
     (ELabel "l" (ERule "IntList"));
     (ERule "_");
     (ELit "]")])).

(** gen-parser.go:1734-1783. *)
Definition rIntList : expr :=
  (EAct onIntList1
    (ESeq [(ELabel "m" (ERule "IntListMember"));
     (ELabel "ms" (EStar (ESeq [(ERule "_");
         (ELit ",");
         (ERule "_");
         (ERule "IntListMember")])))])).

(** gen-parser.go:1784-1833. *)
Definition rIntListMember : expr :=
  (EAct onIntListMember1
    (ESeq [(ELabel "lo" (ERule "Integer"));
     (ELabel "hi" (EOpt (ESeq [(ERule "_");
         (ELit "..");
         (ERule "_");
         (ERule "Integer")])))])).

(** gen-parser.go:1834-1858. *)
Definition rInteger : expr :=
  (EAct onInteger1
    (ELabel "i" (EChoice [(ERule "IntegerConstRef");
       (ERule "IntegerLiteral")]))).

(** gen-parser.go:1859-1874. *)
Definition rIntegerConstRef : expr :=
  (EAct onIntegerConstRef1
    (ELabel "n" (ERule "ConstIdentifier"))).

(** gen-parser.go:1875-1890. *)
Definition rIntegerLiteral : expr :=
  (EAct onIntegerLiteral1
    (ELabel "v" (ERule "IntLiteral"))).

(** gen-parser.go:1891-1932. *)
Definition rIDRef : expr :=
  (EAct onIDRef1
    (ESeq [(ELabel "s" (EOpt (ESeq [(ERule "Identifier");
         (ELit ".")])));
     (ELabel "n" (ERule "Identifier"))])).

(** gen-parser.go:1933-1982. *)
Definition rIdentifierList : expr :=
  (EAct onIdentifierList1
    (ESeq [(ELabel "n" (ERule "Identifier"));
     (ELabel "ns" (EStar (ESeq [(ERule "_");
         (ELit ",");
         (ERule "_");
         (ERule "Identifier")])))])).

(** gen-parser.go:1983-2014. *)
Definition rIdentifier : expr :=
  (EAct onIdentifier1
    (ESeq [(EClass [95] [(97, 122); (65, 90)]);
     (EStar (EClass [95] [(97, 122); (65, 90); (48, 57)]))])).

(** gen-parser.go:2015-2046. *)
Definition rConstIdentifier : expr :=
  (EAct onConstIdentifier1
    (ESeq [(EClass [95] [(65, 90)]);
     (EStar (EClass [95] [(65, 90); (48, 57)]))])).

(** gen-parser.go:2047-2071. *)
Definition rIntLiteral : expr :=
  (EAct onIntLiteral1
    (EChoice [(ERule "HexLiteral");
     (ERule "OctalLiteral");
     (ERule "DecimalLiteral")])).

(** gen-parser.go:2072-2085. *)
Definition rDecimalLiteral : expr :=
  (EPlus (EClass [] [(48, 57)])).

(** gen-parser.go:2086-2109. *)
Definition rHexLiteral : expr :=
  (ESeq [(ELit "0x");
    (EPlus (EClass [] [(48, 57); (97, 102); (65, 70)]))]).

(** gen-parser.go:2110-2133. *)
Definition rOctalLiteral : expr :=
  (ESeq [(ELit "0");
    (EPlus (EClass [] [(48, 55)]))]).

(** gen-parser.go:2134-2140. *)
Definition rSourceChar : expr :=
  EAny.

(** gen-parser.go:2141-2157. *)
Definition rComment : expr :=
  (EChoice [(ERule "MultiLineComment");
    (ERule "SingleLineComment")]).

(** gen-parser.go:2158-2196. *)
Definition rMultiLineComment : expr :=
  (ESeq [(ELit "/*");
    (EStar (ESeq [(ENot (ELit "*/"));
      (ERule "SourceChar")]));
    (ELit "*/")]).

(** gen-parser.go:2197-2229. *)
Definition rSingleLineComment : expr :=
  (ESeq [(ELit "//");
    (EStar (ESeq [(ENot (ERule "EOL"));
      (ERule "SourceChar")]))]).

(** gen-parser.go:2230-2240. *)
Definition r__ : expr :=
  (EPlus (ERule "Skip")).

(** gen-parser.go:2241-2251. *)
Definition r_ : expr :=
  (EStar (ERule "Skip")).

(** gen-parser.go:2252-2272. *)
Definition rSkip : expr :=
  (EChoice [(ERule "Whitespace");
    (ERule "EOL");
    (ERule "Comment")]).

(** gen-parser.go:2273-2283. *)
Definition rWhitespace : expr :=
  (EClass [32; 9; 13] []).

(** gen-parser.go:2284-2292. *)
Definition rEOL : expr :=
  (ELit newline).

(** gen-parser.go:2293-2302. *)
Definition rEOF : expr :=
  (ENot EAny).

(** gen-parser.go:40-2304. *)
Definition g : grammar :=
  [("File", rFile);
   ("Declaration", rDeclaration);
   ("ConstDeclaration", rConstDeclaration);
   ("ContextDeclaration", rContextDeclaration);
   ("ContextMember", rContextMember);
   ("StructDeclaration", rStructDeclaration);
   ("StructDecl", rStructDecl);
   ("StructIdentifier", rStructIdentifier);
   ("ExternDeclaration", rExternDeclaration);
   ("PragmaDeclaration", rPragmaDeclaration);
   ("ContextRefs", rContextRefs);
   ("StructMember", rStructMember);
   ("StructEnding", rStructEnding);
   ("StructEOS", rStructEOS);
   ("SMArray", rSMArray);
   ("SMFixedArray", rSMFixedArray);
   ("SMVarArray", rSMVarArray);
   ("LengthConstraint", rLengthConstraint);
   ("Leftover", rLeftover);
   ("SMRemainder", rSMRemainder);
   ("ArrayBase", rArrayBase);
   ("SMInteger", rSMInteger);
   ("SMPosition", rSMPosition);
   ("SMString", rSMString);
   ("SMStruct", rSMStruct);
   ("SMUnion", rSMUnion);
   ("UnionLength", rUnionLength);
   ("UnionMember", rUnionMember);
   ("UnionCase", rUnionCase);
   ("UnionBody", rUnionBody);
   ("UnionFields", rUnionFields);
   ("UnionField", rUnionField);
   ("ExtentSpec", rExtentSpec);
   ("StructRef", rStructRef);
   ("CharType", rCharType);
   ("IntType", rIntType);
   ("IntConstraint", rIntConstraint);
   ("IntList", rIntList);
   ("IntListMember", rIntListMember);
   ("Integer", rInteger);
   ("IntegerConstRef", rIntegerConstRef);
   ("IntegerLiteral", rIntegerLiteral);
   ("IDRef", rIDRef);
   ("IdentifierList", rIdentifierList);
   ("Identifier", rIdentifier);
   ("ConstIdentifier", rConstIdentifier);
   ("IntLiteral", rIntLiteral);
   ("DecimalLiteral", rDecimalLiteral);
   ("HexLiteral", rHexLiteral);
   ("OctalLiteral", rOctalLiteral);
   ("SourceChar", rSourceChar);
   ("Comment", rComment);
   ("MultiLineComment", rMultiLineComment);
   ("SingleLineComment", rSingleLineComment);
   ("__", r__);
   ("_", r_);
   ("Skip", rSkip);
   ("Whitespace", rWhitespace);
   ("EOL", rEOL);
   ("EOF", rEOF)].

(** * parse/parse.go *)

(** [cast] (parse.go:47-52) of the result of parsing; the assertion to
    [*ast.File] panics on any other value. *)
Definition cast (p : parsed) : outcome file :=
  match p with
  | PErrors => Err "parse error"
  | PValue (VFile f) => Ok f
  | PValue _ => Panic "interface conversion"
  end.

(** parse.go:38-45: [Reader] and [String] on a text; the start rule is the first
    rule (gen-parser.go:3386).  [None] means that the fuel ran out. *)
Definition parseString (n : nat) (data : text) : option (outcome file) :=
  match parseFrom g n "File" data with
  | None => None
  | Some p => Some (cast p)
  end.

(** A file system as seen by [os.Open] and [ioutil.ReadAll]: the content, or
    nothing if one of them fails. *)
Definition disk := string -> option text.

(** parse.go:14-16 and gen-parser.go:3142-3163; [Close] does not fail. *)
Definition parseFile (n : nat) (d : disk) (name : string) : option (outcome file) :=
  match d name with
  | None => Some (Err "open")
  | Some data => parseString n data
  end.

(** parse.go:19-29. *)
Fixpoint parseFiles (n : nat) (d : disk) (names : list string) : option (outcome (list file)) :=
  match names with
  | [] => Some (Ok [])
  | name :: names' =>
      match parseFile n d name with
      | None => None
      | Some (Ok f) =>
          match parseFiles n d names' with
          | Some (Ok fs) => Some (Ok (f :: fs))
          | r => r
          end
      | Some (Err e) => Some (Err e)
      | Some (Panic m) => Some (Panic m)
      | Some OutOfFuel => Some OutOfFuel
      end
  end.
