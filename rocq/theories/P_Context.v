(** Property C95: of the contexts only the fields that are referred to matter.

    [agreeOn camel sv s args args']: the contexts [args] and [args'] agree on the fields that are
    tags or lengths in [s] or in structs inside of it (ContextSpec.v). *)
From Coq Require Import ZArith String List Bool Lia ZifyBool ZifyNat.
From Verif Require Import Base Ast IntervalsModel InspectModel InspectSpec InspectProofs GoLang GenModel GenDecode GenCheck GenSimBody GenSimProg WireSpec WireProofs WireComplete WireFacts GenTerm
  PackageSpec PackageProofs PackageFacts PackageMore GenExamples GenWitness IndepSpec ContextSpec ContextProofs.
Import ListNotations.
Open Scope string_scope.
Open Scope list_scope.
Open Scope Z_scope.

Lemma combine_keys : forall (ns : list string) (vs vs' : list value) x, List.length vs = List.length vs' ->
  alookup x (combine ns vs) = None -> alookup x (combine ns vs') = None.
Proof.
  induction ns as [|y ns IH]; intros [|v vs] [|v' vs'] x L H; cbn in *; try discriminate; auto.
  destruct (String.eqb x y); [discriminate|]. apply (IH vs); auto.
Qed.
Lemma args_length : forall camel r s args, ctxValues camel r s args -> List.length args = List.length (scontexts s).
Proof. intros camel r s args A. unfold ctxValues in A. induction A; cbn; auto. Qed.
Lemma agree_found : forall camel r s args args', ctxValues camel r s args -> ctxValues camel r s args' ->
  agreeOn camel (Struct r) s args args' -> agreeR camel (reads (Struct r) s) (contextsOf s args) (contextsOf s args').
Proof.
  intros camel r s args args' A A' AG x. unfold contextsOf.
  assert (S : forall a, ctxValues camel r s a -> forall v, alookup x (combine (scontexts s) a) = Some v -> In (x, v) (combine (scontexts s) a) /\ exists ty cf, v = VStruct ty cf).
  { clear. intros a A v H. split; [now apply alookup_some_in|]. unfold ctxValues in A. revert v H.
    induction A as [|y w ns vs (c & _ & cf & -> & _) A IH]; intros v H; cbn in H; [discriminate|].
    destruct (String.eqb x y); [injection H as <-; eauto|auto]. }
  assert (L : List.length args = List.length args') by (rewrite (args_length _ _ _ _ A), (args_length _ _ _ _ A'); reflexivity).
  destruct (alookup x (combine (scontexts s) args)) as [v|] eqn:E.
  - destruct (alookup x (combine (scontexts s) args')) as [v'|] eqn:E'.
    + destruct (S args A v E) as (I & ty & cf & ->). destruct (S args' A' v' E') as (I' & ty' & cf' & ->). intros f. eapply AG; eauto.
    + apply (combine_keys _ args' args) in E'; congruence.
  - now rewrite (combine_keys _ args args' x L E).
Qed.

(** Contexts that agree on the fields that the struct refers to, itself or through structs inside
    of it, are as good as each other: a call returns the same, leaves the same in the receiver,
    and fails, panics or goes on for ever alike. *)
Theorem C95_contexts : forall camel os fs r p, package camel os fs r p ->
  forall s fs0 data args args', validCall camel fs r s fs0 data args -> ctxValues camel r s args' ->
  agreeOn camel (Struct r) s args args' ->
  (forall fs1 rest, parses camel p s fs0 data args fs1 rest <-> parses camel p s fs0 data args' fs1 rest) /\
  (forall e, fails camel p s fs0 data args e <-> fails camel p s fs0 data args' e) /\
  (forall m, panics camel p s fs0 data args m <-> panics camel p s fs0 data args' m) /\
  (neverEnds camel p s fs0 data args <-> neverEnds camel p s fs0 data args').
Proof.
  intros camel os fs r p PK s fs0 data args args' VC A' AG.
  assert (VC' : validCall camel fs r s fs0 data args') by (destruct VC; constructor; auto).
  assert (E : forall n, decStruct camel r n s fs0 (contextsOf s args) data = decStruct camel r n s fs0 (contextsOf s args') data).
  { intros n. apply struct_same. apply agree_found; auto. apply VC. }
  split; [|split; [|split]].
  - intros fs1 rest. rewrite (parses_dec camel os fs r p PK _ _ _ _ VC), (parses_dec camel os fs r p PK _ _ _ _ VC').
    split; intros [n H]; exists n; [rewrite <- E|rewrite E]; exact H.
  - intros e. rewrite (fails_dec camel os fs r p PK _ _ _ _ VC), (fails_dec camel os fs r p PK _ _ _ _ VC').
    split; intros [n H]; exists n; [rewrite <- E|rewrite E]; exact H.
  - intros e. rewrite (panics_dec camel os fs r p PK _ _ _ _ VC), (panics_dec camel os fs r p PK _ _ _ _ VC').
    split; intros [n H]; exists n; [rewrite <- E|rewrite E]; exact H.
  - unfold neverEnds. split; intros H n; specialize (H n).
    + apply (run_fuel camel os fs r p PK _ _ _ _ VC) in H. apply (run_fuel camel os fs r p PK _ _ _ _ VC'). now rewrite <- E.
    + apply (run_fuel camel os fs r p PK _ _ _ _ VC') in H. apply (run_fuel camel os fs r p PK _ _ _ _ VC). now rewrite E.
Qed.
Print Assumptions C95_contexts.

(** A struct that refers to no field of a context parses alike with any contexts. *)
Theorem C95_none : forall camel os fs r p, package camel os fs r p ->
  forall s fs0 data args args', validCall camel fs r s fs0 data args -> ctxValues camel r s args' ->
  (forall x f, ~ reads (Struct r) s x f) ->
  forall fs1 rest, parses camel p s fs0 data args fs1 rest <-> parses camel p s fs0 data args' fs1 rest.
Proof.
  intros camel os fs r p PK s fs0 data args args' VC A' N. apply (C95_contexts camel os fs r p PK); auto.
  intros x ty cf ty' cf' _ _ f R. destruct (N x f R).
Qed.
Print Assumptions C95_none.

(** [context opts { u8 n; u8 spare; } struct inner with context opts { u8 xs[opts.n]; }
     struct outer with context opts { u8 a; struct inner i; }]: [spare] does not matter, [n] does. *)
Definition innerS := mkStruct "inner" ["opts"] (Some [MField "xs" (TVar (TInt 8 None) (Some (LRef (mkRef "opts" "n"))))]).
Definition outerS := mkStruct "outer" ["opts"] (Some [u8 "a"; MField "i" (TStruct "inner")]).
Definition ctxFiles := [mkFile [] [mkCtx "opts" [("n", TInt 8 None); ("spare", TInt 8 None)]] [innerS; outerS] []].
Definition optsV n k := VStruct "Opts" [("N", VInt n); ("Spare", VInt k)].
Lemma ctx_package : package camelX osX ctxFiles (theRes ctxFiles) (theProg ctxFiles).
Proof. apply package_of; vm_compute; reflexivity. Qed.
Lemma opts_ok : forall n k, 0 <= n < 256 -> 0 <= k < 256 -> ctxValues camelX (theRes ctxFiles) outerS [optsV n k].
Proof.
  intros n k Hn Hk. constructor; [|constructor]. eexists. split; [vm_compute; reflexivity|]. eexists. split; [reflexivity|].
  repeat constructor; intros sz cst [= <- <-]; eexists; split; reflexivity || lia.
Qed.
Lemma outer_call : forall n k data, 0 <= n < 256 -> 0 <= k < 256 -> goBytes data ->
  validCall camelX ctxFiles (theRes ctxFiles) outerS (blank camelX (Constant (theRes ctxFiles)) outerS) data [optsV n k].
Proof.
  intros n k data Hn Hk G. assert (D : defines ctxFiles outerS) by (split; [reflexivity|]; eexists; split; [left; reflexivity|]; cbn; auto). constructor; auto.
  - now apply opts_ok.
  - apply (blank_goStruct camelX osX _ _ _ ctx_package). now apply defines_in.
Qed.
Lemma outer_reads : forall x f, reads (Struct (theRes ctxFiles)) outerS x f -> x = "opts" /\ f = "n".
Proof.
  assert (I : forall s x f, reads (Struct (theRes ctxFiles)) s x f -> s = innerS \/ s = outerS -> x = "opts" /\ f = "n").
  { induction 1 as [s m f I J N|s m nm t nm' s' x f I J K S X R IH]; intros [-> | ->].
    - destruct I as [<-|[]]. destruct J as [<-|[]]. auto.
    - destruct I as [<-|[<-|[]]]; destruct J.
    - destruct I as [<-|[]]. destruct J as [J|[]]. injection J as <- <-. destruct K.
    - apply IH. left. destruct I as [<-|[<-|[]]]; destruct J as [J|[]]; injection J as <- <-; [destruct K|]. destruct K as [<-|[]]. vm_compute in S. injection S as <-. reflexivity. }
  eauto.
Qed.
Example C95_case : package camelX osX ctxFiles (theRes ctxFiles) (theProg ctxFiles) /\
  validCall camelX ctxFiles (theRes ctxFiles) outerS (blank camelX (Constant (theRes ctxFiles)) outerS) [7; 8; 9] [optsV 2 1] /\
  ctxValues camelX (theRes ctxFiles) outerS [optsV 2 200] /\ agreeOn camelX (Struct (theRes ctxFiles)) outerS [optsV 2 1] [optsV 2 200] /\
  reads (Struct (theRes ctxFiles)) outerS "opts" "n" /\
  parses camelX (theProg ctxFiles) outerS (blank camelX (Constant (theRes ctxFiles)) outerS) [7; 8; 9] [optsV 2 200]
    [("A", VInt 7); ("I", VStruct "Inner" [("Xs", VList [VInt 8; VInt 9])])] [].
Proof.
  assert (G : goBytes [7; 8; 9]) by (apply bytes_ok; vm_compute; reflexivity).
  split; [exact ctx_package|]. split; [apply outer_call; auto; lia|]. split; [apply opts_ok; lia|]. split.
  { intros x ty cf ty' cf' [I|[]] [I'|[]] f R. apply outer_reads in R as [_ ->]. injection I as <- <- <-. injection I' as <- <-. reflexivity. }
  split.
  { eapply (Reads_nested _ _ (MField "i" (TStruct "inner"))); [right; left; reflexivity|left; reflexivity|left; reflexivity|vm_compute; reflexivity|left; reflexivity|].
    apply (Reads_here _ innerS (MField "xs" (TVar (TInt 8 None) (Some (LRef (mkRef "opts" "n"))))) (mkRef "opts" "n")); [left; reflexivity|left; reflexivity|discriminate]. }
  apply (parses_dec camelX osX _ _ _ ctx_package _ _ _ _ (outer_call 2 200 _ ltac:(lia) ltac:(lia) G)). exists 5%nat. vm_compute. reflexivity.
Qed.

(** A field that is referred to matters, even if it is only a struct inside that does. *)
Theorem C95_read_refuted : exists fs r p s fs0 data args args' fs1 rest, package camelX osX fs r p /\ validCall camelX fs r s fs0 data args /\
  ctxValues camelX r s args' /\ (forall m f, In m (members_of s) -> ~ In f (usesOf m)) /\
  parses camelX p s fs0 data args fs1 rest /\ ~ parses camelX p s fs0 data args' fs1 rest.
Proof.
  assert (G : goBytes [7; 8; 9]) by (apply bytes_ok; vm_compute; reflexivity).
  exists ctxFiles, (theRes ctxFiles), (theProg ctxFiles), outerS, (blank camelX (Constant (theRes ctxFiles)) outerS), [7; 8; 9], [optsV 2 1], [optsV 1 1],
    [("A", VInt 7); ("I", VStruct "Inner" [("Xs", VList [VInt 8; VInt 9])])], [].
  split; [exact ctx_package|]. split; [apply outer_call; auto; lia|]. split; [apply opts_ok; lia|]. split.
  { intros m f [<-|[<-|[]]] []. }
  split.
  - apply (parses_dec camelX osX _ _ _ ctx_package _ _ _ _ (outer_call 2 1 _ ltac:(lia) ltac:(lia) G)). exists 5%nat. vm_compute. reflexivity.
  - intros H. apply (parses_dec camelX osX _ _ _ ctx_package _ _ _ _ (outer_call 1 1 _ ltac:(lia) ltac:(lia) G)) in H as [n H].
    assert (F : decStruct camelX (theRes ctxFiles) 5 outerS (blank camelX (Constant (theRes ctxFiles)) outerS) (contextsOf outerS [optsV 1 1]) [7; 8; 9] =
      Ok ([("A", VInt 7); ("I", VStruct "Inner" [("Xs", VList [VInt 8])])], [9])) by (vm_compute; reflexivity).
    assert (X : Ok ([("A", VInt 7); ("I", VStruct "Inner" [("Xs", VList [VInt 8; VInt 9])])], @nil Z) = Ok ([("A", VInt 7); ("I", VStruct "Inner" [("Xs", VList [VInt 8])])], [9])) by (eapply run_unique; eauto; discriminate).
    discriminate X.
Qed.
Print Assumptions C95_read_refuted.
