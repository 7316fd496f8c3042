(** Model of gen/core.go, gen/tests.go, gen/fuzz.go and of writing a corpus
    (tv/corpus.go).  Definitions only. *)
From Coq Require Import ZArith String Ascii List Bool.
From Verif Require Import Base Ast InspectModel IntervalsModel GoLang GenModel GenPrint TvModel.
Import ListNotations.
Open Scope string_scope.
Open Scope list_scope.
Open Scope Z_scope.

(** * Files *)

(** A path, component by component ([filepath.Join] appends; cleaning of "." and
    ".." is not modelled). *)
Definition path := list string.
Definition path_eqb (p q : path) : bool := if list_eq_dec string_dec p q then true else false.

(** The files, the directories made, the writes completed (oldest first) and the
    number of operations so far. *)
Record fsys : Type := mkFS {
  fread : path -> option bytes;
  fdirs : list path;
  flog : list (path * bytes);
  fcount : nat }.

Section Fs.
(** Whether the n-th operation fails: the error, and what a failed write leaves
    in the file ([None]: the file is untouched). *)
Variable fails : nat -> option (string * option bytes).

(** [MkdirAll]. *)
Definition mkdirAll (p : path) (f : fsys) : outcome unit * fsys :=
  match fails (fcount f) with
  | Some (e, _) => (Err e, mkFS (fread f) (fdirs f) (flog f) (S (fcount f)))
  | None => (Ok tt, mkFS (fread f) (fdirs f ++ [p]) (flog f) (S (fcount f)))
  end.

Definition putFile (p : path) (b : bytes) (rd : path -> option bytes) : path -> option bytes :=
  fun q => if path_eqb q p then Some b else rd q.

(** [WriteFile]: create or truncate, then write. *)
Definition writeFile (p : path) (b : bytes) (f : fsys) : outcome unit * fsys :=
  match fails (fcount f) with
  | Some (e, None) => (Err e, mkFS (fread f) (fdirs f) (flog f) (S (fcount f)))
  | Some (e, Some x) => (Err e, mkFS (putFile p x (fread f)) (fdirs f) (flog f) (S (fcount f)))
  | None => (Ok tt, mkFS (putFile p b (fread f)) (fdirs f) (flog f ++ [(p, b)]) (S (fcount f)))
  end.

(** [if err := ...; err != nil { return err }]. *)
Definition andThen (x : outcome unit * fsys) (k : fsys -> outcome unit * fsys) : outcome unit * fsys :=
  match fst x with Ok _ => k (snd x) | _ => x end.
(** A computation that does not touch files. *)
Definition given {A} (x : outcome A) (f : fsys) (k : A -> outcome unit * fsys) : outcome unit * fsys :=
  match x with
  | Ok a => k a
  | Err e => (Err e, f)
  | Panic m => (Panic m, f)
  | OutOfFuel => (OutOfFuel, f)
  end.

(** tv/corpus.go:54-72 [writecorpus], below [base]; [namer] names a file after
    its data.  The wrapping of errors is not modelled. *)
Fixpoint writeVectors (namer : bytes -> string) (dir : path) (vs : list vector) (f : fsys) : outcome unit * fsys :=
  match vs with
  | [] => (Ok tt, f)
  | v :: vs' =>
      andThen (writeFile (dir ++ [namer (fst v)]) (fst v) f) (writeVectors namer dir vs')
  end.
Fixpoint writecorpus (namer : bytes -> string) (base : path) (c : corpus) (f : fsys) : outcome unit * fsys :=
  match c with
  | [] => (Ok tt, f)
  | s :: c' =>
      let dir := base ++ [stype s; "corpus"] in
      andThen (mkdirAll dir f) (fun f1 =>
      andThen (writeVectors namer dir (svectors s) f1) (writecorpus namer base c'))
  end.
End Fs.

(** * gen/tests.go and gen/fuzz.go *)

(** tests.go:37-44 [constrained]. *)
Definition constrained (vs : list vector) : bool :=
  existsb (fun v => match snd v with [] => false | _ :: _ => true end) vs.

(** An emitted function: its name, the inputs listed in it, the function it
    calls and the arguments of the call. *)
Record emitted : Type := mkEmitted {
  eName : string;
  eCases : list bytes;
  eCallee : string;
  eArgs : list string }.

(** tests.go:6-35 [CorpusTests], up to formatting. *)
Definition CorpusTests (camel : string -> string) (c : corpus) : list emitted :=
  flat_map (fun s =>
    if constrained (svectors s) then []
    else [mkEmitted (cat ["Test"; camel (stype s); "Corpus"]) (map fst (svectors s))
                    (cat ["Parse"; camel (stype s)]) ["c.Data"]]) c.

(** fuzz.go:6-28 [Fuzzers], up to formatting. *)
Definition Fuzzers (camel : string -> string) (c : corpus) : list emitted :=
  flat_map (fun s =>
    if constrained (svectors s) then []
    else [mkEmitted (cat ["Fuzz"; camel (stype s)]) [] (cat ["Parse"; camel (stype s)]) ["data"]]) c.

(** The text of the functions, without white space (see GenPrint.v). *)
Definition hexDigit (n : Z) : string :=
  String (ascii_of_nat (Z.to_nat (if n <? 10 then 48 + n else 87 + n))) EmptyString.
(** [%#v] of a byte. *)
Definition showByte (b : Z) : string :=
  if b <? 16 then cat ["0x"; hexDigit b] else cat ["0x"; hexDigit (b / 16); hexDigit (b mod 16)].
Definition showBytes (b : bytes) : string := cat ["[]byte{"; String.concat "," (map showByte b); "}"].
Definition showCall (e : emitted) : string := cat [eCallee e; "("; String.concat "," (eArgs e); ")"].
Definition showTest (e : emitted) : string :=
  cat ["func"; eName e; "(t*testing.T){cases:=[]struct{Data[]byte}{";
       cat (map (fun b => cat ["{Data:"; showBytes b; ",},"]) (eCases e));
       "}for_,c:=rangecases{_,err:="; showCall e; "iferr!=nil{t.Fatal(err)}}}"].
Definition showFuzzer (e : emitted) : string :=
  cat ["func"; eName e; "(data[]byte)int{_,err:="; showCall e; "iferr!=nil{return0}return1}"].

(** * gen/core.go *)

(** [err == fault.ErrNotImplemented]. *)
Definition notImplemented {A} (x : outcome A) : bool :=
  match x with Err e => String.eqb e "not implemented" | _ => false end.

Section Package.
Variable fails : nat -> option (string * option bytes).
(** Printing and [imports.Process], for the three kinds of output. *)
Variable render : program -> outcome bytes.
Variable renderTests : list emitted -> outcome bytes.
Variable renderFuzz : list emitted -> outcome bytes.
(** [sha256namer]. *)
Variable namer : bytes -> string.
Variable camel : string -> string.
(** The configured output directory. *)
Variable dir : path.

(** core.go:42-82 [Package], given what [Marshallers] and [tv.GenerateFiles]
    return. *)
Definition PackageWith (prog : outcome program) (vectors : outcome corpus) (f : fsys) : outcome unit * fsys :=
  given (p <- prog ;; render p) f (fun b =>
  andThen (writeFile fails (dir ++ ["gen-marshallers.go"]) b f) (fun f1 =>
  if notImplemented vectors then (Ok tt, f1)
  else
    given vectors f1 (fun c =>
    andThen (writecorpus fails namer (dir ++ ["testdata"; "fuzz"]) c f1) (fun f2 =>
    given (renderTests (CorpusTests camel c)) f2 (fun t =>
    andThen (writeFile fails (dir ++ ["gen-marshallers_test.go"]) t f2) (fun f3 =>
    given (renderFuzz (Fuzzers camel c)) f3 (fun z =>
    writeFile fails (dir ++ ["gen-fuzz.go"]) z f3))))))).
(** [os1], [os2]: the iteration orders in the resolvers of the two calls. *)
Definition Package (grow : nat -> nat -> nat) (ords : nat -> uorders) (sel : nat -> list vec -> list vec)
    (os1 os2 : nat -> orders) (n : nat) (rn : rng) (fs : list file) (f : fsys) : outcome unit * fsys :=
  PackageWith (Marshallers camel os1 fs) (GenerateFiles grow ords sel os2 n fs rn) f.
End Package.
