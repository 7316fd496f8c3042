(** What the functions do that gen/tests.go and gen/fuzz.go emit next to the
    parser.  Definitions only. *)
From Coq Require Import ZArith String List Bool.
From Verif Require Import Base Ast GoLang GenModel GenPrint TvModel PkgModel.
Import ListNotations.
Open Scope string_scope.
Open Scope list_scope.
Open Scope Z_scope.

(** A call of the function [callee] of the package [p] with one byte slice, see
    decl.go:118-126 for the names of these functions.  A call of a function that is
    not there does not compile. *)
Definition callNamed (p : program) (n : nat) (callee : string) (data : bytes) : sres :=
  match find (fun kf => String.eqb callee (cat ["Parse"; fst kf])) (pctors p) with
  | Some (ty, _) => callCtor p n ty (VBytes data) []
  | None => SPanic "ill-typed"
  end.

(** fuzz.go:18-22: [_, err := ParseX(data); if err != nil { return 0 }; return 1]. *)
Definition runFuzz (p : program) (n : nat) (e : emitted) (data : bytes) : outcome Z :=
  match callNamed p n (eCallee e) data with
  | SRet _ VNil => Ok 1
  | SRet _ (VErr _) => Ok 0
  | SRet _ _ | SNext => Panic "ill-typed"
  | SPanic m => Panic m
  | SFuel => OutOfFuel
  end.

(** tests.go:24-28: [for _, c := range cases { _, err := ParseX(c.Data); if err !=
    nil { t.Fatal(err) } }].  [t.Fatal] ends the test, which then has failed. *)
Fixpoint runCases (p : program) (n : nat) (callee : string) (cases : list bytes) : outcome unit :=
  match cases with
  | [] => Ok tt
  | d :: cases' =>
      match callNamed p n callee d with
      | SRet _ VNil => runCases p n callee cases'
      | SRet _ (VErr m) => Err m
      | SRet _ _ | SNext => Panic "ill-typed"
      | SPanic m => Panic m
      | SFuel => OutOfFuel
      end
  end.
Definition runTest (p : program) (n : nat) (e : emitted) : outcome unit := runCases p n (eCallee e) (eCases e).
