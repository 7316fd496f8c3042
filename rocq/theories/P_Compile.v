(** Properties C29 and C52: the generated Go code is accepted by a Go compiler.

    [package camel os fs r p]: [p] is what gen.Marshallers makes of the files
    [fs], which passed the static checks of GenCheck.v.  [declaredIn], [tidy]:
    declarations of a function body (ScopeSpec.v).  [compiles]: Go's static
    rules (GoTypes.v).  [namesFiles], [fitsFiles]: conditions on the
    declarations (CompileCheck.v).  [returns data (Ok f)]: parse.String reads [f] (PegTop.v). *)
From Coq Require Import ZArith String List Bool.
From Verif Require Import Base Ast IntervalsModel InspectModel InspectSpec InspectProofs GoLang GenModel GenCheck PackageSpec GoTypes CompileCheck
  CompileProg CompileNeeds ScopeSpec ScopeProofs PegModel PegGrammar PegTop GenExamples GenWitness GoldenExamples PackageFacts WireSpec.
Import ListNotations.
Open Scope string_scope.
Open Scope list_scope.
Open Scope Z_scope.

(** C29. In a Parse method receiver, [data], [cur] and the contexts have
    different names, and no declaration in the body hides them; no block
    declares a name twice. *)
Theorem C29_no_capture_partial : forall camel os fs r p, package camel os fs r p -> forall s, defines fs s ->
  exists f rest, alookup (camel (sname s)) (pmethods p) = Some f /\ fparams f = scontexts s /\
    fbody f = SDecl "cur" (EVar "data") :: rest /\
    NoDup (frecv f :: "data" :: "cur" :: fparams f) /\
    (forall x, In x (frecv f :: "data" :: "cur" :: fparams f) -> ~ In x (flat_map declaredIn rest)) /\
    tidyBlock (fbody f).
Proof. exact no_capture. Qed.
Print Assumptions C29_no_capture_partial.

Example C29_case : package camelX osX demo demoR demoP /\ defines demo msg /\ scontexts msg = ["opts"] /\
  exists f, alookup "Msg" (pmethods demoP) = Some f /\ frecv f = "m" /\
            nodup string_dec (flat_map declaredIn (fbody f)) = ["cur"; "restore"; "i"; "tmp"; "err"; "idx"].
Proof.
  split; [exact demo_package|]. split; [exact demo_msg|]. split; [reflexivity|]. eexists. split; [vm_compute; reflexivity|]. split; vm_compute; reflexivity.
Qed.

(** The static checks include that the receiver's name is none of the locals;
    trunnel itself does not check this.  The receiver of [struct ifc] is [i],
    like the index used for NUL-terminated strings, which hides it. *)
Theorem C29_receiver_refuted : exists text f p, returns (textOf text) (Ok f) /\ Marshallers camelX osX [f] = Ok p /\
  (exists m, In m (pmethods p) /\ In (frecv (snd m)) (flat_map declaredIn (fbody (snd m)))) /\
  exists s, defines [f] s /\ snd (runParse camelX p 2 s [("Name", VStr [])] [65; 0] []) = SPanic "ill-typed".
Proof.
  exists "struct ifc { nulterm name; }", (mkFile [] [] [ifc] []), (theProg ifcFiles).
  split; [apply (returns_some _ 2000%nat); vm_compute; reflexivity|]. split; [vm_compute; reflexivity|]. split.
  - eexists. split; [left; reflexivity|]. vm_compute. tauto.
  - exists ifc. split; [split; [reflexivity|]; eexists; split; [left; reflexivity|left; reflexivity]|]. vm_compute. reflexivity.
Qed.
Print Assumptions C29_receiver_refuted.

(** C52. If no name hides what the generated code refers to, the generated
    package compiles exactly if all integers fit the fields they are compared
    with. *)
Theorem C52_compiles_partial : forall camel os fs r p, package camel os fs r p -> namesFiles camel fs = true ->
  (compiles camel p = true <-> fitsFiles r fs = true).
Proof. exact compiles_iff. Qed.
Print Assumptions C52_compiles_partial.

Example C52_case : package camelX osX demo demoR demoP /\ namesFiles camelX demo = true /\ fitsFiles demoR demo = true /\ compiles camelX demoP = true.
Proof. split; [exact demo_package|]. repeat split; vm_compute; reflexivity. Qed.
(** A one-byte field constrained to 256. *)
Definition wide : list file := [mkFile [] [] [mkStruct "wide" [] (Some [MField "x" (TInt 8 (Some [mkRange (ILit 256) None]))])] []].
Example C52_case_too_wide : exists r p, package camelX osX wide r p /\ namesFiles camelX wide = true /\ fitsFiles r wide = false /\ compiles camelX p = false.
Proof.
  exists (theRes wide), (theProg wide). split; [|split; [|split]].
  - apply package_of. vm_compute. reflexivity.
  - vm_compute. reflexivity.
  - vm_compute. reflexivity.
  - vm_compute. reflexivity.
Qed.

(** Files trunnel accepts although the package does not compile. *)
Definition notCompiling (text : string) : Prop :=
  exists f r p, returns (textOf text) (Ok f) /\ NewResolverFiles osX [f] = Ok r /\ Marshallers camelX osX [f] = Ok p /\ compiles camelX p = false.
Lemma not_compiling : forall text,
  match parseString 4000 (textOf text) with
  | Some (Ok f) => match NewResolverFiles osX [f], Marshallers camelX osX [f] with Ok _, Ok p => negb (compiles camelX p) | _, _ => false end
  | _ => false
  end = true -> notCompiling text.
Proof.
  intros text H. unfold notCompiling. destruct (parseString 4000 (textOf text)) as [[f| | |]|] eqn:P; try discriminate.
  destruct (NewResolverFiles osX [f]) as [r| | |] eqn:R; try discriminate. destruct (Marshallers camelX osX [f]) as [p| | |] eqn:M; try discriminate.
  apply negb_true_iff in H. exists f, r, p. repeat split; auto. exact (returns_some _ _ _ P).
Qed.

(** An integer that does not fit the field it is compared with; the receiver
    hidden by a local; a context named like a predeclared identifier; a field
    named like the method; two names equal once converted; a struct named
    like the constructor of another; a field in two cases of a union; two defaults. *)
Theorem C52_compiles_refuted : Forall notCompiling
  ["struct x { u8 a IN [0..300]; }";
   "struct x { u8 t; union u[t] { 256: u8 a; default: ignore; }; }";
   "struct ifc { nulterm name; }";
   "context len { u8 n; } struct x with context len { u8 a[len.n]; }";
   "struct x { u8 parse; }";
   "struct a_b { u8 x; } struct A_b { u8 x; }";
   "struct x { u8 a_b; u8 A_b; }";
   "struct x { u8 y; } struct parse_x { u8 y; }";
   "struct x { u8 t; union u[t] { 1: u8 a; 2: u8 a; default: ignore; }; }";
   "struct x { u8 t; union u[t] { default: u8 a; default: u8 b; }; }"].
Proof. repeat (constructor; [apply not_compiling; vm_compute; reflexivity|]). constructor. Qed.
Print Assumptions C52_compiles_refuted.

(** The checker accepts what trunnel generates for the repository's own test
    files, which do compile. *)
Definition compilesText (text : string) : bool :=
  match parseString 4000 (textOf text) with
  | Some (Ok f) => match Marshallers camelX osX [f] with Ok p => compiles camelX p | _ => false end
  | _ => false
  end.
Example golden_compile : forallb compilesText
  [src_color; src_constant; src_constraint; src_contexts; src_eos; src_fixie; src_ints; src_leftover; src_nest; src_nulterm; src_pos; src_rem; src_unionbasic; src_unioncmds; src_unionlen; src_unionlo; src_vararray] = true.
Proof. vm_compute. reflexivity. Qed.
