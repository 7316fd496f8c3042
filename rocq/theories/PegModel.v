(** Model of the parsing engine in parse/internal/parser/gen-parser.go:
    grammar expressions, parser state and the functions [parseExpr] and below.
    The grammar itself is in [PegGrammar]. *)
From Coq Require Import ZArith String Ascii List Bool.
From Verif Require Import Base Ast.
Import ListNotations.
Open Scope string_scope.
Open Scope list_scope.
Open Scope Z_scope.

(** Source texts are Go byte slices. *)
Definition text := list ascii.
Definition byte (c : ascii) : Z := Z.of_N (N_of_ascii c).
Definition textOf (s : string) : text := list_ascii_of_string s.
Definition stringOf (t : text) : string := string_of_list_ascii t.

(** unicode/utf8.DecodeRune (standard library), called by [read] at
    gen-parser.go:3604: the rune and its width.  The table of first bytes is
    written out as comparisons. *)
Definition RuneError : Z := 65533.
Definition inR (lo hi x : Z) : bool := (lo <=? x) && (x <=? hi).
Definition cont (x : Z) : bool := inR 128 191 x.

Definition DecodeRune (p : text) : Z * nat :=
  match p with
  | [] => (RuneError, 0%nat)
  | c0 :: p1 =>
      let b0 := byte c0 in
      if b0 <? 128 then (b0, 1%nat)
      else if inR 194 223 b0 then
        match p1 with
        | c1 :: _ =>
            let b1 := byte c1 in
            if cont b1 then ((b0 - 192) * 64 + (b1 - 128), 2%nat) else (RuneError, 1%nat)
        | _ => (RuneError, 1%nat)
        end
      else if inR 224 239 b0 then
        match p1 with
        | c1 :: c2 :: _ =>
            let b1 := byte c1 in
            let b2 := byte c2 in
            let lo := if b0 =? 224 then 160 else 128 in
            let hi := if b0 =? 237 then 159 else 191 in
            if inR lo hi b1 && cont b2
            then ((b0 - 224) * 4096 + (b1 - 128) * 64 + (b2 - 128), 3%nat)
            else (RuneError, 1%nat)
        | _ => (RuneError, 1%nat)
        end
      else if inR 240 244 b0 then
        match p1 with
        | c1 :: c2 :: c3 :: _ =>
            let b1 := byte c1 in
            let b2 := byte c2 in
            let b3 := byte c3 in
            let lo := if b0 =? 240 then 144 else 128 in
            let hi := if b0 =? 244 then 143 else 191 in
            if inR lo hi b1 && cont b2 && cont b3
            then ((b0 - 240) * 262144 + (b1 - 128) * 4096 + (b2 - 128) * 64 + (b3 - 128), 4%nat)
            else (RuneError, 1%nat)
        | _ => (RuneError, 1%nat)
        end
      else (RuneError, 1%nat)
  end.

(** The dynamic values that flow through the parser as [interface{}].  The
    interface types of package ast ([Member], [ArrayBase], [Integer],
    [LengthConstraint], all [interface{}]) are represented by the types of
    [Ast]; a Go assertion to one of them only fails on nil, the model's fails on
    any value of another kind. *)
Inductive value : Type :=
| VNil
| VBytes (t : text)                  (* []byte *)
| VString (s : string)               (* string *)
| VInt64 (z : Z)                     (* int64 *)
| VSlice (l : list value)            (* []interface{} *)
| VStrings (l : list string)         (* []string *)
| VMembers (l : list member)         (* []ast.Member *)
| VConst (c : constant)              (* *ast.Constant *)
| VCtx (c : context)                 (* *ast.Context *)
| VStruct (s : struct)               (* *ast.Struct *)
| VPragma (p : pragma)               (* *ast.Pragma *)
| VMember (m : member)               (* *ast.Field, *ast.UnionMember, *ast.EOS, ... *)
| VCase (c : ucase)                  (* *ast.UnionCase *)
| VType (t : type)                   (* *ast.IntType, *ast.CharType, *ast.StructRef *)
| VRef (r : idref)                   (* *ast.IDRef *)
| VLeftover (i : integer)            (* *ast.Leftover *)
| VIntList (l : intlist)             (* *ast.IntegerList *)
| VRange (r : irange)                (* *ast.IntegerRange *)
| VInteger (i : integer)             (* *ast.IntegerLiteral, *ast.IntegerConstRef *)
| VFile (f : file).                  (* *ast.File *)

(** Errors returned by actions. *)
Inductive aerr : Type :=
| ESyntax                            (* strconv.ErrSyntax *)
| ERange                             (* strconv.ErrRange *)
| EUnknownDecl.                      (* unknown declaration *)

(** Errors recorded with [addErr] and [addErrAt], gen-parser.go:3554-3580;
    positions and texts are left out. *)
Inductive perr : Type :=
| EEncoding                          (* errInvalidEncoding *)
| EUnknownRule                       (* undefined rule: ... *)
| EAction (e : aerr).                (* error returned by an action *)

(** The mutable part of [parser], gen-parser.go:3419-3475: the bytes from the
    current offset on, the slice kept under "lingering_declarations" in
    [cur.state] and the recorded errors.  [pt.rn] and [pt.w] are [DecodeRune] of
    the rest; the offset is the length of the data minus that of the rest.  Line
    and column numbers, the farthest failure and the statistics only feed
    messages and are left out. *)
Record pst : Type := mkPst { rest : text; ling : list value; errs : list perr }.

(** One frame of [vstack]: the labels set so far. *)
Definition frame := amap value.
Definition label (l : string) (f : frame) : value :=
  match alookup l f with Some v => v | None => VNil end.

(** Result of an action: the value and possibly an error to record. *)
Definition acted := outcome (value * option aerr).
(** Actions get [cur.text], the top frame and [cur.state]. *)
Definition action := text -> frame -> list value -> acted.
(** State code gets the top frame and changes [cur.state]. *)
Definition stateCode := frame -> list value -> list value.

(** Grammar expressions, gen-parser.go:3205-3304.  The kinds that the grammar
    does not use ([andExpr], [andCodeExpr], [notCodeExpr], [recoveryExpr],
    [throwExpr]) and the flags it never sets ([ignoreCase], [inverted],
    [classes]) are left out. *)
Inductive expr : Type :=
| EAct (run : action) (e : expr)                        (* actionExpr *)
| EAny                                                  (* anyMatcher *)
| EClass (chars : list Z) (ranges : list (Z * Z))       (* charClassMatcher *)
| EChoice (alternatives : list expr)                    (* choiceExpr *)
| ELabel (l : string) (e : expr)                        (* labeledExpr *)
| ELit (val : string)                                   (* litMatcher *)
| ENot (e : expr)                                       (* notExpr *)
| EPlus (e : expr)                                      (* oneOrMoreExpr *)
| ERule (name : string)                                 (* ruleRefExpr *)
| ESeq (exprs : list expr)                              (* seqExpr *)
| EState (run : stateCode)                              (* stateCodeExpr *)
| EStar (e : expr)                                      (* zeroOrMoreExpr *)
| EOpt (e : expr).                                      (* zeroOrOneExpr *)

Definition grammar := list (string * expr).

(** gen-parser.go:3602-3619, without the line and column. *)
Definition invalid (r : text) : bool :=
  let '(rn, n) := DecodeRune r in (rn =? RuneError) && (n =? 1)%nat.

Definition addErr (e : perr) (s : pst) : pst := mkPst (rest s) (ling s) (errs s ++ [e]).
Definition optErr (e : option aerr) (s : pst) : pst :=
  match e with Some x => addErr (EAction x) s | None => s end.

Definition read (s : pst) : pst :=
  let r := skipn (snd (DecodeRune (rest s))) (rest s) in
  let s' := mkPst r (ling s) (errs s) in
  if invalid r then addErr EEncoding s' else s'.

(** gen-parser.go:3621-3630 and 3672-3679. *)
Definition restore (r : text) (s : pst) : pst := mkPst r (ling s) (errs s).
Definition restoreState (l : list value) (s : pst) : pst := mkPst (rest s) l (errs s).

(** gen-parser.go:3681-3683; both arguments are suffixes of the data. *)
Definition sliceFrom (start cur : text) : text :=
  firstn (length start - length cur) start.

(** At the end of the data: [rn] is RuneError with width 0. *)
Definition atEnd (s : pst) : bool :=
  let '(rn, n) := DecodeRune (rest s) in (rn =? RuneError) && (n =? 0)%nat.

Definition rune (s : pst) : Z := fst (DecodeRune (rest s)).

(** The first matching loop of gen-parser.go:3976-4001: a character or a range. *)
Definition inClass (chars : list Z) (ranges : list (Z * Z)) (cur : Z) : bool :=
  existsb (fun rn => rn =? cur) chars ||
  existsb (fun r => (fst r <=? cur) && (cur <=? snd r)) ranges.

(** What [parseExpr] leaves: the match flag, the value, the top frame and the
    state.  Panics in actions unwind to [parse]. *)
Definition done := (bool * value * frame * pst)%type.

(** gen-parser.go:3960-4024. *)
Definition parseClass (chars : list Z) (ranges : list (Z * Z)) (f : frame) (s : pst) : done :=
  if atEnd s then (false, VNil, f, s)
  else if inClass chars ranges (rune s) then
    let s' := read s in (true, VBytes (sliceFrom (rest s) (rest s')), f, s')
  else (false, VNil, f, s).

(** gen-parser.go:3944-3958. *)
Definition parseAny (f : frame) (s : pst) : done :=
  if atEnd s then (false, VNil, f, s)
  else let s' := read s in (true, VBytes (sliceFrom (rest s) (rest s')), f, s').

(** gen-parser.go:4080-4105; the literals of the grammar are ASCII, so ranging
    over the runes is ranging over the bytes. *)
Fixpoint litLoop (want : text) (s : pst) : bool * pst :=
  match want with
  | [] => (true, s)
  | c :: want' =>
      if rune s =? byte c then litLoop want' (read s) else (false, s)
  end.

Definition parseLit (val : string) (f : frame) (s : pst) : done :=
  let '(ok, s') := litLoop (textOf val) s in
  if ok then (true, VBytes (sliceFrom (rest s) (rest s')), f, s')
  else (false, VNil, f, restore (rest s) s').

Section Engine.
  Variable rules : grammar.

  (** gen-parser.go:3822-3885 and the functions it calls.  [pushV] starts an
      empty frame, [popV] drops it.  The loops [for {}] recurse on the same
      expression. *)
  Fixpoint parseExpr (n : nat) (e : expr) (f : frame) (s : pst) : outcome done :=
    match n with
    | O => OutOfFuel
    | S n =>
        match e with
        | EAct run e =>                                         (* :3887-3910 *)
            '(ok, v, f', s') <- parseExpr n e f s ;;
            if ok : bool then
              '(v', er) <- run (sliceFrom (rest s) (rest s')) f' (ling s') ;;
              Ok (true, v', f', optErr er s')
            else Ok (false, v, f', s')
        | EAny => Ok (parseAny f s)
        | EClass chars ranges => Ok (parseClass chars ranges f s)
        | EChoice alts => parseAlts n alts f s                  (* :4041-4063 *)
        | ELabel l e =>                                         (* :4065-4078 *)
            '(ok, v, _, s') <- parseExpr n e [] s ;;
            Ok (ok, v, if ok && negb (String.eqb l "") then ainsert l v f else f, s')
        | ELit val => Ok (parseLit val f s)
        | ENot e =>                                             (* :4123-4139 *)
            '(ok, _, _, s') <- parseExpr n e [] s ;;
            Ok (negb ok, VNil, f, restore (rest s) (restoreState (ling s) s'))
        | EPlus e =>                                            (* :4141-4161 *)
            '(ok, vs, s') <- parseLoop n e s ;;
            match vs with
            | [] => Ok (false, VNil, f, s')
            | _ => Ok (ok, VSlice vs, f, s')
            end
        | ERule name =>                                         (* :4175-4190, 3793-3820 *)
            match alookup name rules with
            | None => Ok (false, VNil, f, addErr EUnknownRule s)
            | Some e =>
                '(ok, v, _, s') <- parseExpr n e [] s ;;
                Ok (ok, v, f, s')
            end
        | ESeq es =>                                            (* :4192-4211 *)
            '(ok, vs, f', s') <- parseSeq n es f s ;;
            if ok : bool then Ok (true, VSlice vs, f', s')
            else Ok (false, VNil, f', restore (rest s) (restoreState (ling s) s'))
        | EState run =>                                         (* :4213-4223 *)
            Ok (true, VNil, f, mkPst (rest s) (run f (ling s)) (errs s))
        | EStar e =>                                            (* :4241-4257 *)
            '(_, vs, s') <- parseLoop n e s ;;
            Ok (true, VSlice vs, f, s')
        | EOpt e =>                                             (* :4259-4269 *)
            '(_, v, _, s') <- parseExpr n e [] s ;;
            Ok (true, v, f, s')
        end
    end
  (** The loop over the alternatives of a choice. *)
  with parseAlts (n : nat) (alts : list expr) (f : frame) (s : pst) : outcome done :=
    match n with
    | O => OutOfFuel
    | S n =>
        match alts with
        | [] => Ok (false, VNil, f, s)
        | alt :: alts' =>
            '(ok, v, _, s') <- parseExpr n alt [] s ;;
            if ok : bool then Ok (true, v, f, s')
            else parseAlts n alts' f (restoreState (ling s) s')
        end
    end
  (** The loop over the parts of a sequence. *)
  with parseSeq (n : nat) (es : list expr) (f : frame) (s : pst)
    : outcome (bool * list value * frame * pst) :=
    match n with
    | O => OutOfFuel
    | S n =>
        match es with
        | [] => Ok (true, [], f, s)
        | e :: es' =>
            '(ok, v, f', s') <- parseExpr n e f s ;;
            if ok : bool then
              '(ok', vs, f'', s'') <- parseSeq n es' f' s' ;;
              Ok (ok', v :: vs, f'', s'')
            else Ok (false, [], f', s')
        end
    end
  (** The loops of [e*] and [e+]: the values until the first failure. *)
  with parseLoop (n : nat) (e : expr) (s : pst) : outcome (bool * list value * pst) :=
    match n with
    | O => OutOfFuel
    | S n =>
        '(ok, v, _, s') <- parseExpr n e [] s ;;
        if ok : bool then
          '(ok', vs, s'') <- parseLoop n e s' ;;
          Ok (ok', v :: vs, s'')
        else Ok (true, [], s')
    end.

  (** gen-parser.go:3716-3780 with [recover] set, as [newParser] does (:3377):
      the value and whether errors are reported.  A failed match without
      recorded errors reports "no match found". *)
  Inductive parsed : Type :=
  | PValue (v : value)         (* value and nil error *)
  | PErrors.                   (* some error; [parse.go:48] drops the value *)

  Definition parseFrom (n : nat) (entry : string) (data : text) : option parsed :=
    let s0 := mkPst data [] [] in
    let s := if invalid data then addErr EEncoding s0 else s0 in
    match parseExpr n (ERule entry) [] s with
    | Ok (true, v, _, s') =>
        Some (match errs s' with [] => PValue v | _ => PErrors end)
    | Ok (false, _, _, _) => Some PErrors
    | Err _ => Some PErrors
    | Panic _ => Some PErrors
    | OutOfFuel => None
    end.
End Engine.
