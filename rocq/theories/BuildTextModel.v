(** Model of [trunnel build] from the bytes of sources to the bytes of Go files:
    cmd/trunnel/trunnel.go and gen/core.go over the printed texts of TextModel.v and
    TestTextModel.v.  Definitions only. *)
From Coq Require Import ZArith String Ascii List Bool.
From Verif Require Import Base Ast InspectModel IntervalsModel GoLang GenModel TvModel PkgModel PegModel PegGrammar BuildModel TextModel TestTextModel.
Import ListNotations.
Open Scope string_scope.
Open Scope list_scope.
Open Scope Z_scope.

(** A text as the content of a file, and back. *)
Definition bytesIn (s : string) : bytes := map (fun c => Z.of_nat (nat_of_ascii c)) (list_ascii_of_string s).
Definition textIn (b : bytes) : string := string_of_list_ascii (sourceOf b).

Section Text.
Variable w : surroundings.
(** [imports.Process("", src, nil)]. *)
Variable process : string -> outcome string.
(** Which of the empty data in a corpus are nil. *)
Variable raw : corpus -> list rawSuite.

(** printer.go:19-21 [imported]. *)
Definition imported (text : outcome string) : outcome bytes := t <- text ;; t' <- process t ;; Ok (bytesIn t').

(** core.go:42-82 [Package], for the package name and the directory of the configuration. *)
Definition PackageText (pkg : string) (dir : path) (n : nat) (fs : list file) (f : fsys) : outcome unit * fsys :=
  given (imported (MarshallersText (bCamel w) pkg (bOrders1 w) fs)) f (fun b =>
  andThen (writeFile (bFails w) (dir ++ ["gen-marshallers.go"]) b f) (fun f1 =>
  let vectors := GenerateFiles (bGrow w) (bOrds w) (bSel w) (bOrders2 w) n fs (bRng w) in
  if notImplemented vectors then (Ok tt, f1)
  else
    given vectors f1 (fun c =>
    andThen (writecorpus (bFails w) (bNamer w) (dir ++ ["testdata"; "fuzz"]) c f1) (fun f2 =>
    given (imported (Ok (TestsText (bCamel w) pkg (raw c)))) f2 (fun t =>
    andThen (writeFile (bFails w) (dir ++ ["gen-marshallers_test.go"]) t f2) (fun f3 =>
    given (imported (Ok (FuzzText (bCamel w) pkg (raw c)))) f3 (fun z =>
    writeFile (bFails w) (dir ++ ["gen-fuzz.go"]) z f3))))))).

(** trunnel.go:51-68, with the values of the flags [--pkg] and [--dir]. *)
Definition buildText (m n : nat) (pkg : string) (dir : path) (names : list string) (f : fsys) : outcome unit * fsys :=
  match names with
  | [] => (Err "missing trunnel filenames", f)
  | _ :: _ =>
      match parseFiles m (inputs w f) names with
      | None => (OutOfFuel, f)
      | Some x => given x f (fun fs => PackageText pkg dir n fs f)
      end
  end.
End Text.
