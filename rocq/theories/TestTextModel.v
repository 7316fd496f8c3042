(** The text that gen/tests.go and gen/fuzz.go print, character by character, before
    imports are added (golang.org/x/tools/imports is not modelled).  Definitions only. *)
From Coq Require Import ZArith String Ascii List Bool.
From Verif Require Import Base TvModel GenPrint PkgModel TextModel.
Import ListNotations.
Open Scope string_scope.
Open Scope list_scope.
Open Scope Z_scope.

(** The data of a vector as the Go value, which may be nil ([None]); [tv.Vector]
    (tv/corpus.go:12-16), [tv.Suite] and [tv.Corpus] (17-25). *)
Definition rawSuite : Type := (string * list (option bytes * cons))%type.
Definition plainData (d : option bytes) : bytes := match d with Some b => b | None => [] end.
(** The same corpus in the terms of TvModel.v, where nil is an empty slice. *)
Definition plain (c : list rawSuite) : corpus := map (fun s => mkSuite (fst s) (map (fun v => (plainData (fst v), snd v)) (snd s))) c.

(** [%#v] of a []byte (fmt/print.go [fmtBytes]); [showByte] is [%#x] of a byte. *)
Definition dataS (d : option bytes) : string :=
  match d with
  | None => "[]byte(nil)"
  | Some b => join ["[]byte{"; String.concat ", " (map showByte b); "}"]
  end.

(** tests.go:37-44. *)
Definition constrainedRaw (vs : list (option bytes * cons)) : bool :=
  existsb (fun v => match snd v with [] => false | _ :: _ => true end) vs.

(** tests.go:20-22. *)
Definition caseS (v : option bytes * cons) : string := join ["{"; nl; "Data: "; dataS (fst v); ","; nl; "},"; nl].
(** tests.go:12-32, the body of the loop. *)
Definition testS (camel : string -> string) (s : rawSuite) : string :=
  if constrainedRaw (snd s) then EmptyString
  else join ["func Test"; camel (fst s); "Corpus(t *testing.T) {"; nl;
             "cases := []struct{"; nl; "Data []byte"; nl; "}{"; nl;
             join (map caseS (snd s)); "}"; nl;
             "for _, c := range cases {"; nl;
             "_, err := Parse"; camel (fst s); "(c.Data)"; nl;
             "if err != nil { t.Fatal(err) }"; nl; "}"; nl; "}"; nl; nl].
(** tests.go:6-35 [CorpusTests]. *)
Definition TestsText (camel : string -> string) (pkg : string) (c : list rawSuite) : string :=
  join [markS; pkgS pkg; join (map (testS camel) c)].

(** fuzz.go:13-23, the body of the loop. *)
Definition fuzzS (camel : string -> string) (s : rawSuite) : string :=
  if constrainedRaw (snd s) then EmptyString
  else join ["func Fuzz"; camel (fst s); "(data []byte) int {"; nl;
             "_, err := Parse"; camel (fst s); "(data)"; nl;
             "if err != nil { return 0 }"; nl; "return 1"; "}"; nl; nl].
(** fuzz.go:6-28 [Fuzzers]. *)
Definition FuzzText (camel : string -> string) (pkg : string) (c : list rawSuite) : string :=
  join [markS; join ["// +build gofuzz"; nl; nl]; pkgS pkg; join (map (fuzzS camel) c)].
