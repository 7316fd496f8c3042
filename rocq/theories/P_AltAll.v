(** Property C105: files that write the same structs in other ways. *)
From Coq Require Import ZArith String List Bool Lia ZifyBool ZifyNat.
From Verif Require Import Base Ast IntervalsModel InspectModel InspectSpec InspectProofs GoLang GenModel GenDecode GenCheck GenSim GenSimBody GenSimProg GenMono WireSpec WireProofs WireComplete WireFacts GenTerm FwdProofs
  PackageSpec PackageProofs PackageFacts PackageMore GenExamples GenWitness AltSpec P_Alt P_Mod ModProofs AltAllProofs.
Import ListNotations.
Open Scope string_scope.
Open Scope list_scope.
Open Scope Z_scope.

(** C105.  Let two programs have the same constants and contexts, and structs of the same names with the
    same contexts and members but for the way they are written.  Then all parsers do the same in both. *)
Theorem C105_files : forall camel os os' fs fs' r r' p p', package camel os fs r p -> package camel os' fs' r' p' ->
  (forall x, Constant r x = Constant r' x) -> (forall x, Context r x = Context r' x) ->
  (forall nm, match Struct r nm, Struct r' nm with
              | Some s, Some s' => scontexts s' = scontexts s /\ Extern s' = Extern s /\ altMembers (Constant r) (members_of s) (members_of s')
              | None, None => True
              | _, _ => False
              end) ->
  forall nm s s', Struct r nm = Some s -> Struct r' nm = Some s' -> Extern s = false ->
  blank camel (Constant r) s = blank camel (Constant r') s' /\
  forall fs0 data args, goStruct camel r s fs0 -> goBytes data -> ctxValues camel r s args ->
  (forall fs1 rest, parses camel p s fs0 data args fs1 rest <-> parses camel p' s' fs0 data args fs1 rest) /\
  (forall e, fails camel p s fs0 data args e <-> fails camel p' s' fs0 data args e) /\
  (forall m, panics camel p s fs0 data args m <-> panics camel p' s' fs0 data args m) /\
  (neverEnds camel p s fs0 data args <-> neverEnds camel p' s' fs0 data args).
Proof.
  intros camel os os' fs fs' r r' p p' PK PK' CN CX ST nm s s' SS SS' XS.
  assert (R : respelt r s s') by (generalize (ST nm); rewrite SS, SS'; auto). split; [now apply (respelt_blank camel r r' CN)|]. intros fs0 data args GS GB CV.
  destruct R as (SC & X & A). rewrite XS in X.
  destruct (str_defines camel os fs r p PK nm s SS XS) as [D _]. destruct (str_defines camel os' fs' r' p' PK' nm s' SS' X) as [D' _].
  assert (VC : validCall camel fs r s fs0 data args) by (constructor; auto).
  assert (VC' : validCall camel fs' r' s' fs0 data args).
  { constructor; auto. - apply (ctx_same camel r r' CX) in CV. unfold ctxValues in *. now rewrite SC. - apply (go_same camel r r' CN). unfold goStruct in *. now apply (alt_holds camel r) with (ms := members_of s). }
  assert (E : forall n, decStruct camel r n s fs0 (contextsOf s args) data = decStruct camel r' n s' fs0 (contextsOf s' args) data).
  { intros n. replace (contextsOf s' args) with (contextsOf s args) by (unfold contextsOf; now rewrite SC). apply (respelt_struct camel r r' CN); auto.
    - intros q t Q T. eapply (str_check camel os fs r p PK); eauto.
    - intros q t Q T. eapply (str_check camel os' fs' r' p' PK'); eauto.
    - split; auto. split; auto. congruence.
    }
  split; [|split; [|split]].
  - intros a c. rewrite (parses_dec camel os fs r p PK _ _ _ _ VC), (parses_dec camel os' fs' r' p' PK' _ _ _ _ VC'). split; intros [n H]; exists n; [now rewrite <- E|now rewrite E].
  - intros e. rewrite (fails_dec camel os fs r p PK _ _ _ _ VC), (fails_dec camel os' fs' r' p' PK' _ _ _ _ VC'). split; intros [n H]; exists n; [now rewrite <- E|now rewrite E].
  - intros e. rewrite (panics_dec camel os fs r p PK _ _ _ _ VC), (panics_dec camel os' fs' r' p' PK' _ _ _ _ VC'). split; intros [n H]; exists n; [now rewrite <- E|now rewrite E].
  - split; intros H n.
    + apply (run_fuel camel os' fs' r' p' PK' _ _ _ _ VC'). rewrite <- E. apply (run_fuel camel os fs r p PK _ _ _ _ VC). apply H.
    + apply (run_fuel camel os fs r p PK _ _ _ _ VC). rewrite E. apply (run_fuel camel os' fs' r' p' PK' _ _ _ _ VC'). apply H.
Qed.
Print Assumptions C105_files.

(** [struct tree { u8 k IN [0, 1]; union u[k] { 1: struct tree l; struct tree r; }; }; struct top { struct tree t; u8 e[..0]; }] and
    [struct tree { u8 k IN [0..1]; union w[k] { 1: struct tree l; struct tree r; default: ; }; }; struct top { struct tree t; char e[]; }]. *)
Definition trees := [MField "l" (TStruct "tree"); MField "r" (TStruct "tree")].
Definition aaTree := mkStruct "tree" [] (Some [MField "k" (TInt 8 (Some [sg 0; sg 1])); MUnion "u" (local "k") None [UCase (Some [sg 1]) trees]]).
Definition aaTree' := mkStruct "tree" [] (Some [MField "k" (TInt 8 (Some [rg 0 1])); MUnion "w" (local "k") None [UCase (Some [sg 1]) trees; UCase None []]]).
Definition aaTop := mkStruct "top" [] (Some [MField "t" (TStruct "tree"); MField "e" (TVar byteT nothing)]).
Definition aaTop' := mkStruct "top" [] (Some [MField "t" (TStruct "tree"); MField "e" (TVar TChar None)]).
Notation aa := (one [aaTree; aaTop]).
Notation aa' := (one [aaTree'; aaTop']).
Lemma aa_package : package camelX osX aa (theRes aa) (theProg aa).
Proof. apply package_of; vm_compute; reflexivity. Qed.
Lemma aa_package' : package camelX osX aa' (theRes aa') (theProg aa').
Proof. apply package_of; vm_compute; reflexivity. Qed.
Lemma aa_struct : forall nm, Struct (theRes aa) nm = alookup nm [("tree", aaTree); ("top", aaTop)].
Proof. intros nm. vm_compute. reflexivity. Qed.
Lemma aa_struct' : forall nm, Struct (theRes aa') nm = alookup nm [("tree", aaTree'); ("top", aaTop')].
Proof. intros nm. vm_compute. reflexivity. Qed.
Definition leaf (k : Z) := VStruct "Tree" [("K", VInt k); ("L", VNil); ("R", VNil)].
Example C105_case : package camelX osX aa (theRes aa) (theProg aa) /\ package camelX osX aa' (theRes aa') (theProg aa') /\
  (forall x, Constant (theRes aa) x = Constant (theRes aa') x) /\ (forall x, Context (theRes aa) x = Context (theRes aa') x) /\
  (forall nm, match Struct (theRes aa) nm, Struct (theRes aa') nm with
              | Some s, Some s' => scontexts s' = scontexts s /\ Extern s' = Extern s /\ altMembers (Constant (theRes aa)) (members_of s) (members_of s')
              | None, None => True
              | _, _ => False
              end) /\
  Struct (theRes aa) "top" = Some aaTop /\ Struct (theRes aa') "top" = Some aaTop' /\
  parses camelX (theProg aa) aaTop (blank camelX (Constant (theRes aa)) aaTop) [1; 0; 0; 7; 8] []
    [("T", VStruct "Tree" [("K", VInt 1); ("L", leaf 0); ("R", leaf 0)]); ("E", VList [VInt 7; VInt 8])] [] /\
  fails camelX (theProg aa') aaTop' (blank camelX (Constant (theRes aa')) aaTop') [1; 0; 2; 7; 8] [] "integer constraint violated".
Proof.
  assert (S : forall l l', (forall x, inList (theRes aa) x l = inList (theRes aa) x l') -> sameSet (Constant (theRes aa)) l l') by (intros l l' H x; rewrite <- !inList_spec, H; tauto).
  split; [exact aa_package|]. split; [exact aa_package'|]. split; [intros x; vm_compute; reflexivity|]. split; [intros x; vm_compute; reflexivity|]. split; [|split; [vm_compute; reflexivity|split; [vm_compute; reflexivity|split]]].
  - intros nm. rewrite aa_struct, aa_struct'. cbn [alookup]. destruct (String.eqb nm "tree"); [|destruct (String.eqb nm "top"); [|exact I]]; split; auto; split; auto; cbn [members_of aaTree aaTree' aaTop aaTop' smembers].
    + constructor; [constructor; constructor; apply AB_int; [lia|]; intros x _; apply S; intros y; cbn; lia|]. constructor; [|constructor].
      apply (AM_default _ "u" "w" _ _ _ _ [UCase (Some [sg 1]) trees]); [constructor| |].
      * constructor; [constructor; apply S; reflexivity| |constructor]. constructor; [constructor; constructor; constructor; cbn; auto|]. constructor; [constructor; constructor; constructor; cbn; auto|constructor].
      * intros ms [E|[]]. discriminate E.
    + constructor; [constructor; constructor; constructor; cbn; auto|]. constructor; [constructor; apply AT_none; [constructor; cbn; auto|reflexivity]|constructor].
  - assert (G : goBytes [1; 0; 0; 7; 8]) by (apply bytes_ok; vm_compute; reflexivity).
    assert (V : validCall camelX aa (theRes aa) aaTop (blank camelX (Constant (theRes aa)) aaTop) [1; 0; 0; 7; 8] []).
    { apply (fresh_call [aaTree; aaTop] aaTop); [vm_compute; reflexivity|right; now left|reflexivity|reflexivity|exact G]. }
    apply (parses_dec camelX osX _ _ _ aa_package _ _ _ _ V). exists 9%nat. vm_compute. reflexivity.
  - assert (G : goBytes [1; 0; 2; 7; 8]) by (apply bytes_ok; vm_compute; reflexivity).
    assert (V : validCall camelX aa' (theRes aa') aaTop' (blank camelX (Constant (theRes aa')) aaTop') [1; 0; 2; 7; 8] []).
    { apply (fresh_call [aaTree'; aaTop'] aaTop'); [vm_compute; reflexivity|right; now left|reflexivity|reflexivity|exact G]. }
    apply (fails_dec camelX osX _ _ _ aa_package' _ _ _ _ V). exists 9%nat. vm_compute. reflexivity.
Qed.
