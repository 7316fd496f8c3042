(** Model of what parse/internal/parser/gen-parser.go reports: the engine of
    [PegModel] with positions, the farthest failure, the texts of errors and the
    count of expressions.  The part [base] of the state is the state of
    [PegModel]. *)
From Coq Require Import ZArith String Ascii List Bool.
From Verif Require Import Base Ast PegModel PegGrammar GenPrint.
Import ListNotations.
Open Scope string_scope.
Open Scope list_scope.
Open Scope Z_scope.

(** gen-parser.go:3172-3174. *)
Record position : Type := mkPosition { line : Z; col : Z; offset : Z }.

(** gen-parser.go:3351-3358 [parserError]: the position, the rule that [addErrAt]
    puts into the prefix (empty outside of all rules), the text of the inner error
    and what was expected. *)
Record report : Type := mkReport { rpos : position; rrule : string; rtext : string; rexpected : list string }.

(** The mutable part of [parser], gen-parser.go:3419-3475: the part that
    [PegModel] describes, the position in [pt], the reports in [errs], the farthest
    failure ([maxFailPos], [maxFailExpected], [maxFailInvertExpected]) and
    [ExprCnt]. *)
Record rst : Type := mkRst {
  base : pst; pt : position; reports : list report;
  far : position; wants : list string; inverted : bool; exprCnt : Z }.

Definition withBase (b : pst) (s : rst) : rst :=
  mkRst b (pt s) (reports s) (far s) (wants s) (inverted s) (exprCnt s).
Definition withPt (p : position) (s : rst) : rst :=
  mkRst (base s) p (reports s) (far s) (wants s) (inverted s) (exprCnt s).
Definition withInverted (i : bool) (s : rst) : rst :=
  mkRst (base s) (pt s) (reports s) (far s) (wants s) i (exprCnt s).
(** gen-parser.go:3834-3837; the limit [maxExprCnt] is 2^64-1 and is not modelled. *)
Definition tick (s : rst) : rst :=
  mkRst (base s) (pt s) (reports s) (far s) (wants s) (inverted s) (exprCnt s + 1).
Definition addReport (r : report) (s : rst) : rst :=
  mkRst (base s) (pt s) (reports s ++ [r]) (far s) (wants s) (inverted s) (exprCnt s).

(** gen-parser.go:3582-3600. *)
Definition failAt (fail : bool) (p : position) (want : string) (s : rst) : rst :=
  if Bool.eqb fail (inverted s) then
    if offset p <? offset (far s) then s
    else
      let want := if inverted s then String "!"%char want else want in
      if offset (far s) <? offset p
      then mkRst (base s) (pt s) (reports s) p [want] (inverted s) (exprCnt s)
      else mkRst (base s) (pt s) (reports s) (far s) (wants s ++ [want]) (inverted s) (exprCnt s)
  else s.

(** gen-parser.go:3602-3619: the position after reading [w] bytes, at rune [rn]. *)
Definition next (w : nat) (rn : Z) (p : position) : position :=
  if rn =? 10 then mkPosition (line p + 1) 0 (offset p + Z.of_nat w)
  else mkPosition (line p) (col p + 1) (offset p + Z.of_nat w).
(** What [read] does after the base state has moved to [b]. *)
Definition arrive (rule : string) (w : nat) (b : pst) (s : rst) : rst :=
  let p := next w (fst (DecodeRune (rest b))) (pt s) in
  let s' := withPt p (withBase b s) in
  if invalid (rest b) then addReport (mkReport p rule "invalid encoding" []) s' else s'.
Definition readR (rule : string) (s : rst) : rst :=
  arrive rule (snd (DecodeRune (rest (base s)))) (read (base s)) s.

(** gen-parser.go:3621-3630: the test for equal offsets, which are equal
    positions, is left out. *)
Definition restoreR (s0 s : rst) : rst := withPt (pt s0) (withBase (restore (rest (base s0)) (base s)) s).
Definition restoreStateR (s0 s : rst) : rst := withBase (restoreState (ling (base s0)) (base s)) s.

(** strconv.AppendQuote (standard library) on the literals of the grammar, which
    are printable except for the newline. *)
Definition backslash : ascii := "\"%char.
Definition dquote : string := String (ascii_of_nat 34) "".
Definition quoteChar (c : ascii) : string :=
  if byte c =? 10 then String backslash "n"
  else if (byte c =? 34) || (byte c =? 92) then String backslash (String c "")
  else String c "".
Definition quote (s : string) : string :=
  (dquote ++ String.concat "" (map quoteChar (list_ascii_of_string s)) ++ dquote)%string.

(** The field [val] of the character classes of the grammar: gen-parser.go:1994,
    2004, 2026, 2036, 2079, 2101, 2125, 2278. *)
Definition classVals : list (list Z * list (Z * Z) * string) :=
  [([95], [(97, 122); (65, 90)], "[a-zA-Z_]");
   ([95], [(97, 122); (65, 90); (48, 57)], "[a-zA-Z0-9_]");
   ([95], [(65, 90)], "[A-Z_]");
   ([95], [(65, 90); (48, 57)], "[A-Z0-9_]");
   ([], [(48, 57)], "[0-9]");
   ([], [(48, 57); (97, 102); (65, 70)], "[0-9a-fA-F]");
   ([], [(48, 55)], "[0-7]");
   ([32; 9; 13], [], "[ \t\r]")].
Definition zlistb (a b : list Z) : bool := if list_eq_dec Z.eq_dec a b then true else false.
Definition classVal (chars : list Z) (ranges : list (Z * Z)) : string :=
  match find (fun x => zlistb (fst (fst x)) chars &&
                       zlistb (map fst (snd (fst x))) (map fst ranges) &&
                       zlistb (map snd (snd (fst x))) (map snd ranges)) classVals with
  | Some (_, _, v) => v
  | None => ""
  end.

(** Texts of the errors of actions: strconv.NumError.Error of ParseInt (standard
    library), and gen-parser.go:2321. *)
Definition errText (t : text) (e : aerr) : string :=
  match e with
  | ESyntax => ("strconv.ParseInt: parsing " ++ quote (stringOf t) ++ ": invalid syntax")%string
  | ERange => ("strconv.ParseInt: parsing " ++ quote (stringOf t) ++ ": value out of range")%string
  | EUnknownDecl => "unknown declaration"
  end.
(** gen-parser.go:3892-3899. *)
Definition optReport (rule : string) (p : position) (t : text) (e : option aerr) (s : rst) : rst :=
  match e with
  | Some x => addReport (mkReport p rule (errText t x) []) (withBase (addErr (EAction x) (base s)) s)
  | None => s
  end.

Definition doneR := (bool * value * frame * rst)%type.

(** gen-parser.go:3944-3958. *)
Definition anyR (rule : string) (f : frame) (s : rst) : doneR :=
  if atEnd (base s) then (false, VNil, f, failAt false (pt s) "." s)
  else
    let s' := readR rule s in
    (true, VBytes (sliceFrom (rest (base s)) (rest (base s'))), f, failAt true (pt s) "." s').

(** gen-parser.go:3960-4024. *)
Definition classR (rule : string) (chars : list Z) (ranges : list (Z * Z)) (f : frame) (s : rst) : doneR :=
  let val := classVal chars ranges in
  if atEnd (base s) then (false, VNil, f, failAt false (pt s) val s)
  else if inClass chars ranges (PegModel.rune (base s)) then
    let s' := readR rule s in
    (true, VBytes (sliceFrom (rest (base s)) (rest (base s'))), f, failAt true (pt s) val s')
  else (false, VNil, f, failAt false (pt s) val s).

(** gen-parser.go:4080-4105. *)
Fixpoint litLoopR (rule : string) (want : text) (s : rst) : bool * rst :=
  match want with
  | [] => (true, s)
  | c :: want' =>
      if PegModel.rune (base s) =? byte c then litLoopR rule want' (readR rule s) else (false, s)
  end.
Definition litR (rule : string) (val : string) (f : frame) (s : rst) : doneR :=
  let '(ok, s') := litLoopR rule (textOf val) s in
  if ok then (true, VBytes (sliceFrom (rest (base s)) (rest (base s'))), f, failAt true (pt s) (quote val) s')
  else (false, VNil, f, restoreR s (failAt false (pt s) (quote val) s')).

Section Engine.
  Variable rules : grammar.

  (** gen-parser.go:3822-3885 and the functions it calls, as in [PegModel].
      [rule] is the top of [rstack]. *)
  Fixpoint exprR (n : nat) (rule : string) (e : expr) (f : frame) (s : rst) : outcome doneR :=
    match n with
    | O => OutOfFuel
    | S n =>
        let s := tick s in
        match e with
        | EAct run e =>                                         (* :3887-3910 *)
            '(ok, v, f', s') <- exprR n rule e f s ;;
            if ok : bool then
              let t := sliceFrom (rest (base s)) (rest (base s')) in
              '(v', er) <- run t f' (ling (base s')) ;;
              Ok (true, v', f', optReport rule (pt s) t er s')
            else Ok (false, v, f', s')
        | EAny => Ok (anyR rule f s)
        | EClass chars ranges => Ok (classR rule chars ranges f s)
        | EChoice alts => altsR n rule alts f s                 (* :4041-4063 *)
        | ELabel l e =>                                         (* :4065-4078 *)
            '(ok, v, _, s') <- exprR n rule e [] s ;;
            Ok (ok, v, if ok && negb (String.eqb l "") then ainsert l v f else f, s')
        | ELit val => Ok (litR rule val f s)
        | ENot e =>                                             (* :4123-4139 *)
            '(ok, _, _, s') <- exprR n rule e [] (withInverted (negb (inverted s)) s) ;;
            Ok (negb ok, VNil, f, restoreR s (restoreStateR s (withInverted (negb (inverted s')) s')))
        | EPlus e =>                                            (* :4141-4161 *)
            '(ok, vs, s') <- loopR n rule e s ;;
            match vs with
            | [] => Ok (false, VNil, f, s')
            | _ => Ok (ok, VSlice vs, f, s')
            end
        | ERule name =>                                         (* :4175-4190, 3793-3820 *)
            match alookup name rules with
            | None =>
                Ok (false, VNil, f,
                    addReport (mkReport (pt s) rule ("undefined rule: " ++ name) []) (withBase (addErr EUnknownRule (base s)) s))
            | Some e =>
                '(ok, v, _, s') <- exprR n name e [] s ;;
                Ok (ok, v, f, s')
            end
        | ESeq es =>                                            (* :4192-4211 *)
            '(ok, vs, f', s') <- seqR n rule es f s ;;
            if ok : bool then Ok (true, VSlice vs, f', s')
            else Ok (false, VNil, f', restoreR s (restoreStateR s s'))
        | EState run =>                                         (* :4213-4223 *)
            Ok (true, VNil, f, withBase (mkPst (rest (base s)) (run f (ling (base s))) (errs (base s))) s)
        | EStar e =>                                            (* :4241-4257 *)
            '(_, vs, s') <- loopR n rule e s ;;
            Ok (true, VSlice vs, f, s')
        | EOpt e =>                                             (* :4259-4269 *)
            '(_, v, _, s') <- exprR n rule e [] s ;;
            Ok (true, v, f, s')
        end
    end
  with altsR (n : nat) (rule : string) (alts : list expr) (f : frame) (s : rst) : outcome doneR :=
    match n with
    | O => OutOfFuel
    | S n =>
        match alts with
        | [] => Ok (false, VNil, f, s)
        | alt :: alts' =>
            '(ok, v, _, s') <- exprR n rule alt [] s ;;
            if ok : bool then Ok (true, v, f, s')
            else altsR n rule alts' f (restoreStateR s s')
        end
    end
  with seqR (n : nat) (rule : string) (es : list expr) (f : frame) (s : rst)
    : outcome (bool * list value * frame * rst) :=
    match n with
    | O => OutOfFuel
    | S n =>
        match es with
        | [] => Ok (true, [], f, s)
        | e :: es' =>
            '(ok, v, f', s') <- exprR n rule e f s ;;
            if ok : bool then
              '(ok', vs, f'', s'') <- seqR n rule es' f' s' ;;
              Ok (ok', v :: vs, f'', s'')
            else Ok (false, [], f', s')
        end
    end
  with loopR (n : nat) (rule : string) (e : expr) (s : rst) : outcome (bool * list value * rst) :=
    match n with
    | O => OutOfFuel
    | S n =>
        '(ok, v, _, s') <- exprR n rule e [] s ;;
        if ok : bool then
          '(ok', vs, s'') <- loopR n rule e s' ;;
          Ok (ok', v :: vs, s'')
        else Ok (true, [], s')
    end.
End Engine.

(** gen-parser.go:3369-3400 and the first [read] of :3752: the state before the
    first rule. *)
Definition startR (data : text) : rst :=
  let origin := mkPosition 1 1 0 in
  let s0 := mkRst (mkPst data [] []) (mkPosition 1 0 0) [] origin [] false 0 in
  arrive "" 0 (if invalid data then addErr EEncoding (base s0) else base s0) s0.

(** gen-parser.go:3782-3791. *)
Definition listJoin (l : list string) (sep lastSep : string) : string :=
  match rev l with
  | [] => ""
  | [x] => x
  | x :: front => (String.concat sep (rev front) ++ " " ++ lastSep ++ " " ++ x)%string
  end.

(** sort.Strings (standard library): [order] stands for the order in which the
    map of expected things is iterated. *)
Definition leString (a b : string) : bool :=
  match String.compare a b with Gt => false | _ => true end.
Fixpoint insertString (x : string) (l : list string) : list string :=
  match l with
  | [] => [x]
  | y :: l' => if leString x y then x :: l else y :: insertString x l'
  end.
Definition sortStrings (l : list string) : list string := fold_right insertString [] l.

(** gen-parser.go:3757-3773: what was expected.  The keys of the map are the
    distinct entries; [order] permutes them. *)
Definition expectedList (order : list string -> list string) (ws : list string) : list string :=
  let keys := nodup string_dec ws in
  let eof := existsb (String.eqb "!.") keys in
  let keys := filter (fun k => negb (String.eqb "!." k)) keys in
  sortStrings (order keys) ++ (if eof then ["EOF"] else []).

(** gen-parser.go:3774. *)
Definition noMatch (order : list string -> list string) (s : rst) : report :=
  let expected := expectedList order (wants s) in
  mkReport (far s) "" ("no match found, expected: " ++ listJoin expected ", " "or") expected.

(** gen-parser.go:3558-3577 and :3361-3363: the text of a report. *)
Definition showReport (filename : string) (r : report) : string :=
  ((if String.eqb filename "" then "" else filename ++ ":") ++
   showZ (line (rpos r)) ++ ":" ++ showZ (col (rpos r)) ++ " (" ++ showZ (offset (rpos r)) ++ ")" ++
   (if String.eqb (rrule r) "" then "" else ": rule " ++ rrule r) ++ ": " ++ rtext r)%string.

(** gen-parser.go:3319-3329 [dedupe]: the first report with every text. *)
Fixpoint dedupe (filename : string) (seen : list string) (l : list report) : list report :=
  match l with
  | [] => []
  | r :: l' =>
      let m := showReport filename r in
      if existsb (String.eqb m) seen then dedupe filename seen l' else r :: dedupe filename (m :: seen) l'
  end.
(** gen-parser.go:3331-3347. *)
Definition showReports (filename : string) (l : list report) : string :=
  String.concat newline (map (showReport filename) l).

(** gen-parser.go:3716-3780: the value, or the reports; a panic in an action is
    the third outcome (its report is not modelled; [PegReportTop] shows that
    there is none).  [None] means that the fuel ran out. *)
Inductive reported : Type :=
| RValue (v : value)
| RErrors (l : list report)
| RPanic.

Definition parseR (order : list string -> list string) (n : nat) (filename : string) (data : text) : option reported :=
  match exprR g n "" (ERule "File") [] (startR data) with
  | Ok (ok, v, _, s) =>
      let l := if ok then reports s else match reports s with [] => [noMatch order s] | l => l end in
      Some (match dedupe filename [] l with [] => RValue v | l => RErrors l end)
  | OutOfFuel => None
  | _ => Some RPanic
  end.

(** parse.go:35-37 with the error text. *)
Definition parseMessage (order : list string -> list string) (n : nat) (filename : string) (data : text)
  : option (file + string) :=
  match parseR order n filename data with
  | Some (RValue (VFile f)) => Some (inl f)
  | Some (RErrors l) => Some (inr (showReports filename l))
  | _ => None
  end.
