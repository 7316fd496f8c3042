(** Model of the command line tool, cmd/trunnel/trunnel.go.  Definitions only.

    Not modelled: the parsing of flags, the exit status and the printing of the
    error (both by the cli package). *)
From Coq Require Import ZArith String Ascii List Bool.
From Verif Require Import Base Ast InspectModel IntervalsModel GoLang GenModel TvModel PkgModel PegModel PegGrammar.
Import ListNotations.
Open Scope string_scope.
Open Scope list_scope.
Open Scope Z_scope.

(** What the tool does not control: failures of file operations, the text of the
    generated code, hashes, converted names, iteration orders, growth of slices,
    selection and random numbers; and which path a file name stands for. *)
Record surroundings : Type := mkSurroundings {
  bFails : nat -> option (string * option bytes);
  bRender : program -> outcome bytes;
  bTests : list emitted -> outcome bytes;
  bFuzz : list emitted -> outcome bytes;
  bNamer : bytes -> string;
  bCamel : string -> string;
  bGrow : nat -> nat -> nat;
  bOrds : nat -> uorders;
  bSel : nat -> list vec -> list vec;
  bOrders1 : nat -> orders;
  bOrders2 : nat -> orders;
  bRng : rng;
  bLocate : string -> path }.

(** The content of a file as the text that the parser reads. *)
Definition sourceOf (b : bytes) : text := map (fun z => ascii_of_nat (Z.to_nat z)) b.
(** [os.Open] and [ioutil.ReadAll] of a file. *)
Definition inputs (w : surroundings) (f : fsys) : disk := fun name => option_map sourceOf (fread f (bLocate w name)).

(** trunnel.go:51-68, the action of [trunnel build], for an output directory and
    the file names given as arguments.  [m] and [n] bound the steps of the
    source parser and of the vector generator. *)
Definition build (w : surroundings) (m n : nat) (dir : path) (names : list string) (f : fsys) : outcome unit * fsys :=
  match names with
  | [] => (Err "missing trunnel filenames", f)
  | _ :: _ =>
      match parseFiles m (inputs w f) names with
      | None => (OutOfFuel, f)
      | Some x =>
          given x f (fun fs =>
            Package (bFails w) (bRender w) (bTests w) (bFuzz w) (bNamer w) (bCamel w) dir
                    (bGrow w) (bOrds w) (bSel w) (bOrders1 w) (bOrders2 w) n (bRng w) fs f)
      end
  end.
