(** Properties C10, C11 (the generated code's side) and C28: the generator. *)
From Coq Require Import ZArith String List Bool Lia.
From Verif Require Import Base Ast IntervalsModel InspectModel InspectSpec InspectProofs BranchProofs GoLang GenModel GenDecode GenCheck
  GenSim GenSimBody WireProofs GenTotal GenSwitch GenExamples GenWitness.
Import ListNotations.
Open Scope string_scope.
Open Scope list_scope.
Open Scope Z_scope.

(** C10: the condition generated for an integer list, evaluated by Go where the
    tested expression is [x] ... *)
Theorem C10_condition_exact : forall r types env v x l c, conditional r v l = Ok c -> l <> [] -> eval types env v = Ok (VInt x) ->
  exists b, eval types env c = Ok (VBool b) /\ (b = true <-> in_list (Constant r) l x).
Proof. exact condition_exact. Qed.
Print Assumptions C10_condition_exact.

(** ... hence says the same as the set that test vectors are drawn from. *)
Theorem C10_condition_agrees : forall r types env v x l c s, good_list (Constant r) l -> l <> [] ->
  conditional r v l = Ok c -> Intervals r l = Ok s -> eval types env v = Ok (VInt x) ->
  eval types env c = Ok (VBool (Contains s x)).
Proof. exact condition_agrees. Qed.
Print Assumptions C10_condition_agrees.

Example C10_condition_case : let l := [mkRange (ILit 1) (Some (IConst "LIMIT")); mkRange (ILit 7) None] in
  good_list (Constant demoR) l /\
  conditional demoR (EVar "x") l = Ok (EBin BOr (EParen (EBin BAnd (EBin BLe (EInt 1) (EVar "x")) (EBin BLe (EVar "x") (EInt 3)))) (EBin BEq (EVar "x") (EInt 7))) /\
  (exists s, Intervals demoR l = Ok s /\ Contains s 7 = true /\ Contains s 4 = false).
Proof.
  split; [repeat constructor; eexists; eexists; (split; [reflexivity|]); vm_compute; repeat split; discriminate|].
  split; [reflexivity|]. eexists. split; [reflexivity|]. split; reflexivity.
Qed.

(** C11: running the code generated for a union runs the code generated for the
    members of the case that [Lookup] finds ([bodyOf]), and does nothing if it
    finds none. *)
Theorem C11_lookup_agrees : forall camel r s tag cs sz cst bs, Forall (good_case (Constant r)) cs -> one_default cs ->
  IntType r tag s = Ok (sz, cst) -> 0 <= sz <= 64 -> NewBranches r s tag cs = Ok bs ->
  forall x, 0 <= x < 2 ^ sz ->
  forall rv types call n u st env, parseMember camel r rv (MUnion u tag None cs) = Ok st ->
  eval types env (refExpr camel rv tag) = Ok (VInt x) ->
  match Lookup bs x with
  | Some b => exists code, bodyOf camel r rv (bcase b) code /\ exec types call n st env = exec types call n (SBlock code) env
  | None => exec types call n st env = (env, SNext)
  end.
Proof. exact lookup_agrees. Qed.
Print Assumptions C11_lookup_agrees.

Example C11_switch_case :
  let cs := [UCase (is 1) [u8 "x"]; UCase None [MFail]; UCase (is 2) [MIgnore]] in
  let s := mkStruct "s" [] (Some [u8 "t"; MUnion "u" (local "t") None cs]) in
  let env := [("s", VStruct "S" [("T", VInt 2); ("X", VInt 0)]); ("cur", VBytes [5])] in
  Forall (good_case (Constant NewResolverEmpty)) cs /\ one_default cs /\ IntType NewResolverEmpty (local "t") s = Ok (8, None) /\
  (exists bs, NewBranches NewResolverEmpty s (local "t") cs = Ok bs) /\
  (exists st, parseMember camelX NewResolverEmpty "s" (MUnion "u" (local "t") None cs) = Ok st) /\
  eval [] env (refExpr camelX "s" (local "t")) = Ok (VInt 2).
Proof.
  split; [|split; [|split; [reflexivity|split; [eexists; vm_compute; reflexivity|split; [eexists; reflexivity|reflexivity]]]]].
  - repeat constructor; try discriminate; eexists; eexists; (split; [reflexivity|]); vm_compute; repeat split; discriminate.
  - apply oneDefaultb_spec. reflexivity.
Qed.

(** C28: generation succeeds exactly when everything the structs mention
    resolves ([filesResolve]); an error can only come from the resolver; all
    other failures are panics. *)
Theorem C28_generates_iff : forall camel os fs r, NewResolverFiles os fs = Ok r ->
  ((exists p, Marshallers camel os fs = Ok p) <-> filesResolve r fs).
Proof. exact marshallers_iff. Qed.
Print Assumptions C28_generates_iff.

Theorem C28_no_errors : forall camel os fs r e, NewResolverFiles os fs = Ok r -> Marshallers camel os fs <> Err e.
Proof. exact marshallers_no_err. Qed.
Print Assumptions C28_no_errors.

(** So C28 is false for input that does not resolve: a struct that is used but
    not defined, or an undefined constant, is a panic. *)
Theorem C28_unresolved_refuted : exists camel os fs m, all_valid os /\ Marshallers camel os fs = Panic m.
Proof.
  exists camelX, osX, (one [mkStruct "a" [] (Some [MField "x" (TStruct "b")])]), "struct not found".
  split; [apply id_orders_valid|reflexivity].
Qed.
Print Assumptions C28_unresolved_refuted.

Example C28_case : NewResolverFiles osX demo = Ok demoR /\ filesResolve demoR demo.
Proof.
  split; [vm_compute; reflexivity|]. apply (C28_generates_iff camelX osX demo demoR); [vm_compute; reflexivity|].
  eexists. vm_compute. reflexivity.
Qed.
