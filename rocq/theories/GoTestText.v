(** What functions in the text of Go files are tests over a table of inputs, and fuzz
    functions.  This file describes Go and its tools, not trunnel.

    After "The Go Programming Language Specification", sections Composite literals,
    For statements with range clause, Calls, and the documentation of the packages
    testing, go/build (build constraints) and of go-fuzz (Fuzz functions). *)
From Coq Require Import ZArith String Ascii List Bool.
From Verif Require Import Base GoLang GoTypes GoText.
Import ListNotations.
Open Scope string_scope.
Open Scope list_scope.
Open Scope Z_scope.

(** The value of [[]byte{...}] and of [[]byte(nil)]. *)
Definition byteOf (e : gx) : option Z :=
  match e with XNum n => 'z <-? intOf n ;; if (0 <=? z) && (z <? 256) then Some z else None | _ => None end.
Definition isBytes (t : gx) : bool := match t with XSliceOf (XName b) => String.eqb b "byte" | _ => false end.
Definition bytesOf (e : gx) : option bytes :=
  match e with
  | XLit t es => if isBytes t then all byteOf es else None
  | XCall t [XName x] => if (isBytes t && String.eqb x "nil")%bool then Some [] else None
  | _ => None
  end.

(** A function that goes through inputs.  [hName]: its name; [hTable]: the inputs that
    are written in it; [hCallee]: the function that is called with an input. *)
Record harness : Type := mkHarness { hName : string; hTable : list bytes; hCallee : string }.

Fixpoint distinct (l : list string) : bool := match l with [] => true | x :: l' => negb (inb x l') && distinct l' end.
(** Local names that hide neither each other nor what is called. *)
Definition locals (xs : list string) (callee : string) : bool :=
  forallb fresh (callee :: xs) && distinct (callee :: xs).

(** [_, err := callee(arg)]. *)
Definition callOf (s : gs) : option (string * string * gx) :=
  match s with
  | YAssign o [XName u; XName err] [XCall (XName callee) [arg]] =>
      if (String.eqb o ":=" && String.eqb u "_")%bool then Some (err, callee, arg) else None
  | _ => None
  end.
(** [if err != nil { s }]. *)
Definition failOf (err : string) (s : gs) : option gs :=
  match s with
  | YIf (XBin o (XName e) (XName x)) [t] => if (String.eqb o "!=" && String.eqb e err && String.eqb x "nil")%bool then Some t else None
  | _ => None
  end.

(** A test of a table: [func TestX(t *testing.T) { cases := []struct{ F []byte }{ {F: d}, ... };
    for _, c := range cases { _, err := callee(c.F); if err != nil { t.Fatal(err) } } }]. *)
Definition caseOf (f : string) (e : gx) : option bytes :=
  match e with XElem [XKey (XName g) d] => if String.eqb f g then bytesOf d else None | _ => None end.
Definition tableOf (e : gx) : option (string * list bytes) :=
  match e with
  | XLit (XSliceOf (XStructOf [(f, t)])) es => if isBytes t then 'ds <-? all (caseOf f) es ;; Some (f, ds) else None
  | _ => None
  end.
Definition isTesting (t : gx) : bool :=
  match t with XUn o (XSel (XName q) n) => (String.eqb o "*" && String.eqb q "testing" && String.eqb n "T")%bool | _ => false end.
Definition isFatal (t err : string) (s : gs) : bool :=
  match s with
  | YExpr (XCall (XSel (XName x) m) [XName e]) => (String.eqb x t && String.eqb m "Fatal" && String.eqb e err)%bool
  | _ => false
  end.
Definition isInput (c f : string) (e : gx) : bool :=
  match e with XSel (XName x) g => (String.eqb x c && String.eqb g f)%bool | _ => false end.
Definition testOf (d : gd) : option harness :=
  match d with
  | YFunc None name [(t, ty)] [] [YAssign o [XName cases] [table]; YRange [XName u; XName c] (XName over) [call; check]] =>
      '(f, ds) <-? tableOf table ;; '(err, callee, arg) <-? callOf call ;; 'fatal <-? failOf err check ;;
      if (prefix "Test" name && isTesting ty && String.eqb o ":=" && String.eqb u "_" && String.eqb over cases && isInput c f arg && isFatal t err fatal
          && locals [t; cases; c; err] callee)%bool
      then Some (mkHarness name ds callee) else None
  | _ => None
  end.

(** A fuzz function: [func FuzzX(data []byte) int { _, err := callee(data); if err != nil { return 0 }; return 1 }].
    The results say whether the input is of interest. *)
Definition returns (z : string) (s : gs) : bool := match s with YReturn [XNum x] => String.eqb x z | _ => false end.
Definition isName (x : string) (e : gx) : bool := match e with XName y => String.eqb y x | _ => false end.
Definition fuzzOf (d : gd) : option harness :=
  match d with
  | YFunc None name [(data, t)] [r] [call; check; last] =>
      '(err, callee, arg) <-? callOf call ;; 'bad <-? failOf err check ;;
      if (prefix "Fuzz" name && isBytes t && isName "int" r && isName data arg && returns "0" bad && returns "1" last && locals [data; err] callee)%bool
      then Some (mkHarness name [] callee) else None
  | _ => None
  end.

(** Build constraints: lines [// +build ...] above the package clause, with a blank
    line below.  [lines]: the lines of a text. *)
Fixpoint linesOf (acc s : string) : list string :=
  match s with
  | EmptyString => [acc]
  | String c s' => if Ascii.eqb c newline then acc :: linesOf "" s' else linesOf (acc ++ one c) s'
  end.
Definition tagOf (l : string) : list string :=
  if prefix "// +build " l then [substring 10 (String.length l - 10) l] else [].
(** [seen]: not yet known to be above a blank line. *)
Fixpoint buildTags (seen : list string) (ls : list string) : list string :=
  match ls with
  | [] => []
  | l :: ls' =>
      if String.eqb l "" then seen ++ buildTags [] ls'
      else if prefix "//" l then buildTags (seen ++ tagOf l) ls' else []
  end.
Definition constraintsOf (s : string) : list string := buildTags [] (linesOf "" s).

(** How Go reads a file of tests, and a file of fuzz functions. *)
Definition readTests (n : nat) (s : string) : option (string * list harness) :=
  '(pkg, ds) <-? pFile n (tokens s) ;; 'hs <-? all testOf ds ;; Some (pkg, hs).
Definition readFuzzers (n : nat) (s : string) : option (string * list harness) :=
  '(pkg, ds) <-? pFile n (tokens s) ;; 'hs <-? all fuzzOf ds ;; Some (pkg, hs).
