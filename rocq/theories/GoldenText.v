(** The texts that the model writes for the sources in gen/tests, and the committed Go files
    (formatted, and with imports), read as Go: the same declarations.  Comparisons on examples
    only; what holds of all sources is in P_Text.v. *)
From Coq Require Import ZArith String Ascii List Bool.
From Verif Require Import PegModel PegGrammar Base Ast InspectModel GoLang GenModel GenPrint GenExamples GoldenExamples GoText TextModel.
Import ListNotations.
Open Scope string_scope.
Open Scope list_scope.

Definition written (src pkg : string) : string :=
  match parsedSource src with
  | Some (Ok f) => match MarshallersText simpleCamel pkg osX [f] with Ok s => s | _ => "" end
  | _ => ""
  end.
(** Formatting drops doubled parentheses. *)
Fixpoint single (e : expr) : expr :=
  match e with
  | EParen a => match single a with EParen b => EParen b | b => EParen b end
  | ENot a => ENot (single a)
  | EBin o a b => EBin o (single a) (single b)
  | _ => e
  end.
Fixpoint singleS (s : stmt) : stmt :=
  match s with
  | SIf c b => SIf (single c) (map singleS b)
  | SBlock b => SBlock (map singleS b)
  | SForLt x n b => SForLt x n (map singleS b)
  | SWhile c b => SWhile (single c) (map singleS b)
  | SSwitch cs => SSwitch (map (fun c => (match fst c with Some e => Some (single e) | None => None end, map singleS (snd c))) cs)
  | _ => s
  end.
Definition singleF (f : func) : func := mkFunc (frecv f) (fparams f) (map singleS (fbody f)).
Definition singleD (d : decl) : decl :=
  match d with DType x fs => DType x fs | DMethod x ts f => DMethod x ts (singleF f) | DFunc x ts f => DFunc x ts (singleF f) end.

Definition readsAs (src pkg go : string) : Prop :=
  exists ds es, readGo 300 go = Some (pkg, ds) /\ readGo 300 (written src pkg) = Some (pkg, es) /\ map singleD es = ds /\ ds <> [].
Ltac same := vm_compute; eexists _, _; repeat split; discriminate.

Example text_color : readsAs src_color "color" go_color.
Proof. same. Qed.
Example text_constant : readsAs src_constant "constant" go_constant.
Proof. same. Qed.
Example text_constraint : readsAs src_constraint "constraint" go_constraint.
Proof. same. Qed.
Example text_contexts : readsAs src_contexts "contexts" go_contexts.
Proof. same. Qed.
Example text_eos : readsAs src_eos "eos" go_eos.
Proof. same. Qed.
Example text_fixie : readsAs src_fixie "fixie" go_fixie.
Proof. same. Qed.
Example text_ints : readsAs src_ints "ints" go_ints.
Proof. same. Qed.
Example text_leftover : readsAs src_leftover "leftover" go_leftover.
Proof. same. Qed.
Example text_nest : readsAs src_nest "nest" go_nest.
Proof. same. Qed.
Example text_nulterm : readsAs src_nulterm "nulterm" go_nulterm.
Proof. same. Qed.
Example text_pos : readsAs src_pos "pos" go_pos.
Proof. same. Qed.
Example text_rem : readsAs src_rem "rem" go_rem.
Proof. same. Qed.
Example text_unionbasic : readsAs src_unionbasic "unionbasic" go_unionbasic.
Proof. same. Qed.
Example text_unioncmds : readsAs src_unioncmds "unioncmds" go_unioncmds.
Proof. same. Qed.
Example text_unionlen : readsAs src_unionlen "unionlen" go_unionlen.
Proof. same. Qed.
Example text_unionlo : readsAs src_unionlo "unionlo" go_unionlo.
Proof. same. Qed.
Example text_vararray : readsAs src_vararray "vararray" go_vararray.
Proof. same. Qed.
