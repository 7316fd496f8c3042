(** Property C90: the order of the cases of a union does not matter.

    [rearranged cv cv' fs fs']: both sides declare the same structs and contexts, except that cases
    of unions, no two of which are for the same integer, come in another order, and except for how
    integers and lists of integers are written (OrderSpec.v).  [agree]: the same fields with the
    same contents. *)
From Coq Require Import ZArith String List Bool Permutation Lia ZifyBool ZifyNat.
From Verif Require Import Base Ast IntervalsModel InspectModel InspectSpec InspectProofs GoLang GenModel GenDecode GenCheck GenSimBody WireSpec WireProofs WireComplete WireFacts GenTerm
  PackageSpec PackageProofs PackageFacts SameSpec SameProofs ExtSpec ExtProofs GenExamples GenWitness OrderSpec OrderProofs P_Ext.
Import ListNotations.
Open Scope string_scope.
Open Scope list_scope.
Open Scope Z_scope.

Lemma agree_sym : forall fs fs', agree fs fs' -> agree fs' fs.
Proof. intros fs fs' [A B]. split; auto. Qed.

Theorem C90_parses : forall camel os os' fs fs' r r' p p', package camel os fs r p -> package camel os' fs' r' p' ->
  rearranged (Constant r) (Constant r') fs fs' -> forall s s', arrStruct (Constant r) (Constant r') s s' ->
  forall fs0 fs0' data args, validCall camel fs r s fs0 data args -> validCall camel fs' r' s' fs0' data args -> agree fs0 fs0' ->
  (forall fs1 rest, parses camel p s fs0 data args fs1 rest -> exists fs1', parses camel p' s' fs0' data args fs1' rest /\ agree fs1 fs1') /\
  (forall fs1' rest, parses camel p' s' fs0' data args fs1' rest -> exists fs1, parses camel p s fs0 data args fs1 rest /\ agree fs1 fs1').
Proof.
  intros camel os os' fs fs' r r' p p' PK PK' RA s s' SS fs0 fs0' data args VC VC' [HF HF'].
  destruct (arr_extended _ _ _ _ RA) as [E E']. destruct (arr_struct _ _ _ _ SS) as [S S'].
  pose proof (C76_still_parsed none camel os os' fs fs' r r' p p' PK PK' E s s' S fs0 fs0' data args VC VC' HF) as A.
  pose proof (C76_still_parsed none camel os' os fs' fs r' r p' p PK' PK E' s' s S' fs0' fs0 data args VC' VC HF') as B.
  split.
  - intros fs1 rest H. destruct (A _ _ H) as (fs1' & H' & X). destruct (B _ _ H') as (fs2 & H2 & Y).
    destruct (parses_fun camel os fs r p PK _ _ _ _ VC _ _ _ _ H H2) as [-> _]. exists fs1'. split; auto. split; auto.
  - intros fs1' rest H. destruct (B _ _ H) as (fs1 & H' & X). destruct (A _ _ H') as (fs2 & H2 & Y).
    destruct (parses_fun camel os' fs' r' p' PK' _ _ _ _ VC' _ _ _ _ H H2) as [-> _]. exists fs1. split; auto. split; auto.
Qed.
Print Assumptions C90_parses.

(** Errors, panics and calls that do not end are the same. *)
Theorem C90_fails : forall camel os os' fs fs' r r' p p', package camel os fs r p -> package camel os' fs' r' p' ->
  rearranged (Constant r) (Constant r') fs fs' -> forall s s', arrStruct (Constant r) (Constant r') s s' ->
  forall fs0 fs0' data args, validCall camel fs r s fs0 data args -> validCall camel fs' r' s' fs0' data args -> agree fs0 fs0' ->
  (forall e, fails camel p s fs0 data args e <-> fails camel p' s' fs0' data args e) /\
  (forall m, panics camel p s fs0 data args m <-> panics camel p' s' fs0' data args m) /\
  (neverEnds camel p s fs0 data args <-> neverEnds camel p' s' fs0' data args).
Proof.
  intros camel os os' fs fs' r r' p p' PK PK' RA s s' SS fs0 fs0' data args VC VC' [HF HF'].
  destruct (arr_extended _ _ _ _ RA) as [E E']. destruct (arr_struct _ _ _ _ SS) as [S S'].
  destruct (C76_only_refused none camel os os' fs fs' r r' p p' PK PK' E s s' S fs0 fs0' data args VC VC' HF) as (A1 & A2 & A3).
  destruct (C76_only_refused none camel os' os fs' fs r' r p' p PK' PK E' s' s S' fs0' fs0 data args VC' VC HF') as (B1 & B2 & B3).
  split; [|split; [|split; auto]]; [|intros m; split; auto].
  intros e. split; intros H; [apply A1|apply B1]; auto; left; intros [].
Qed.
Print Assumptions C90_fails.

(** New values agree, and the same arguments will do on both sides. *)
Theorem C90_fresh : forall camel os os' fs fs' r r' p p', package camel os fs r p -> package camel os' fs' r' p' ->
  rearranged (Constant r) (Constant r') fs fs' -> forall s s', defines fs s -> defines fs' s' -> arrStruct (Constant r) (Constant r') s s' ->
  forall data args, ctxValues camel r s args -> goBytes data ->
  validCall camel fs r s (blank camel (Constant r) s) data args /\ validCall camel fs' r' s' (blank camel (Constant r') s') data args /\
  agree (blank camel (Constant r) s) (blank camel (Constant r') s').
Proof.
  intros camel os os' fs fs' r r' p p' PK PK' RA s s' D D' SS data args CV B.
  destruct (arr_extended _ _ _ _ RA) as [E E']. destruct (arr_struct _ _ _ _ SS) as [S S'].
  destruct (C76_fresh none camel os os' fs fs' r r' p p' PK PK' E s s' D D' S data args CV B) as (V & V' & H).
  destruct (C76_fresh none camel os' os fs' fs r' r p' p PK' PK E' s' s D' D S' data args (vc_args _ _ _ _ _ _ _ V') B) as (_ & _ & H').
  split; auto. split; auto. split; auto.
Qed.
Print Assumptions C90_fresh.

(** [struct pick { u8 t; union u[t] { 1..2: u8 a; 7: u16 b; default: fail; }; }], and with the cases
    in another order. *)
Definition pickCases := [UCase (Some [mkRange (ILit 1) (Some (ILit 2))]) [u8 "a"]; UCase (is 7) [MField "b" (TInt 16 None)]; UCase None [MFail]].
Definition pickCases' := [UCase None [MFail]; UCase (is 7) [MField "b" (TInt 16 None)]; UCase (Some [mkRange (ILit 1) (Some (ILit 2))]) [u8 "a"]].
Definition pickS cs := mkStruct "pick" [] (Some [u8 "t"; MUnion "u" (local "t") None cs]).
Lemma case_at : forall r l ms x, case_matches (Constant r) (UCase (Some l) ms) x -> inList r x l = true.
Proof. intros r l ms x (l' & E & H). injection E as <-. now apply inList_spec. Qed.
Lemma pick_apart : forall r, apart (Constant r) pickCases.
Proof.
  intros r. repeat constructor; intros [[E1 E2]|(x & M1 & M2)]; try discriminate.
  - apply case_at in M1, M2. change (((1 <=? x) && (x <=? 2)) || false = true) in M1. change (((7 <=? x) && (x <=? 7)) || false = true) in M2. lia.
  - destruct M2 as (l & E & _). discriminate E.
  - destruct M2 as (l & E & _). discriminate E.
Qed.
Lemma pick_arr : forall r r', arrStruct (Constant r) (Constant r') (pickS pickCases) (pickS pickCases').
Proof.
  intros r r'. assert (L1 : sameLists (Constant r) (Constant r') (Some [mkRange (ILit 1) (Some (ILit 2))]) (Some [mkRange (ILit 1) (Some (ILit 2))])).
  { cbn [sameLists]. intros x. rewrite <- !inList_spec. reflexivity. }
  assert (L7 : sameLists (Constant r) (Constant r') (is 7) (is 7)).
  { cbn [sameLists is]. intros x. rewrite <- !inList_spec. reflexivity. }
  assert (T : forall sz, sameT (Constant r) (Constant r') (TInt sz None) (TInt sz None)) by (intros; constructor; exact I).
  split; [reflexivity|]. split; [reflexivity|]. split; [reflexivity|]. split; [reflexivity|]. cbn [members_of pickS smembers].
  constructor; [constructor; apply T|]. constructor; [|constructor].
  apply (Arr_union _ _ _ _ _ _ _ _ pickCases); [exact I|apply pick_apart| |].
  - constructor; [constructor; [exact L1|repeat constructor]|].
    constructor; [constructor; [exact L7|repeat constructor]|].
    constructor; [constructor; [exact I|repeat constructor]|constructor].
  - exact (Permutation_rev pickCases).
Qed.
Example C90_case : let A := one [pickS pickCases] in let B := one [pickS pickCases'] in
  package camelX osX A (theRes A) (theProg A) /\ package camelX osX B (theRes B) (theProg B) /\
  rearranged (Constant (theRes A)) (Constant (theRes B)) A B /\ arrStruct (Constant (theRes A)) (Constant (theRes B)) (pickS pickCases) (pickS pickCases') /\
  parses camelX (theProg A) (pickS pickCases) (blank camelX (Constant (theRes A)) (pickS pickCases)) [7; 1; 2; 3] [] [("T", VInt 7); ("A", VInt 0); ("B", VInt 258)] [3] /\
  parses camelX (theProg B) (pickS pickCases') (blank camelX (Constant (theRes B)) (pickS pickCases')) [7; 1; 2; 3] [] [("T", VInt 7); ("B", VInt 258); ("A", VInt 0)] [3].
Proof.
  cbv zeta. set (A := one [pickS pickCases]). set (B := one [pickS pickCases']).
  assert (PA : package camelX osX A (theRes A) (theProg A)) by (apply package_of; vm_compute; reflexivity).
  assert (PB : package camelX osX B (theRes B) (theProg B)) by (apply package_of; vm_compute; reflexivity).
  assert (RA : rearranged (Constant (theRes A)) (Constant (theRes B)) A B).
  { constructor.
    - intros f s [<-|[]] [<-|[]] _. eexists _, _. split; [left; reflexivity|]. split; [left; reflexivity|]. apply pick_arr.
    - intros f s [<-|[]] [<-|[]] _. eexists _, _. split; [left; reflexivity|]. split; [left; reflexivity|]. apply pick_arr.
    - intros c. split; intros (f & [<-|[]] & []). }
  assert (G : goBytes [7; 1; 2; 3]) by (apply bytes_ok; vm_compute; reflexivity).
  destruct (C90_fresh camelX osX osX A B _ _ _ _ PA PB RA (pickS pickCases) (pickS pickCases')) with (data := [7; 1; 2; 3]) (args := @nil value) as (V & V' & _); auto.
  1,2: apply one_defines; [now left|reflexivity]. 1: apply pick_arr. 1: constructor.
  split; auto. split; auto. split; auto. split; [apply pick_arr|]. split.
  - apply (parses_dec camelX osX A _ _ PA _ _ _ _ V). exists 5%nat. vm_compute. reflexivity.
  - apply (parses_dec camelX osX B _ _ PB _ _ _ _ V'). exists 5%nat. vm_compute. reflexivity.
Qed.

(** It does matter if two cases are for the same integer: then the first one counts. *)
Definition overA := [UCase (Some [mkRange (ILit 1) (Some (ILit 5))]) [u8 "a"]; UCase (is 3) [u8 "b"]].
Definition overB := [UCase (is 3) [u8 "b"]; UCase (Some [mkRange (ILit 1) (Some (ILit 5))]) [u8 "a"]].
Theorem C90_overlap_refuted : exists cs cs' r p r' p' fs1 fs1', Permutation cs cs' /\
  package camelX osX (one [pickS cs]) r p /\ package camelX osX (one [pickS cs']) r' p' /\
  parses camelX p (pickS cs) (blank camelX (Constant r) (pickS cs)) [3; 9] [] fs1 [] /\
  parses camelX p' (pickS cs') (blank camelX (Constant r') (pickS cs')) [3; 9] [] fs1' [] /\ ~ agree fs1 fs1'.
Proof.
  assert (PA : package camelX osX (one [pickS overA]) (theRes (one [pickS overA])) (theProg (one [pickS overA]))) by (apply package_of; vm_compute; reflexivity).
  assert (PB : package camelX osX (one [pickS overB]) (theRes (one [pickS overB])) (theProg (one [pickS overB]))) by (apply package_of; vm_compute; reflexivity).
  assert (G : goBytes [3; 9]) by (apply bytes_ok; vm_compute; reflexivity).
  exists overA, overB. do 4 eexists. exists [("T", VInt 3); ("A", VInt 9); ("B", VInt 0)], [("T", VInt 3); ("B", VInt 9); ("A", VInt 0)].
  split; [apply perm_swap|]. split; [exact PA|]. split; [exact PB|]. split; [|split].
  - apply (parses_dec camelX osX _ _ _ PA _ _ _ _ (fresh_call [pickS overA] (pickS overA) [3; 9] eq_refl (or_introl eq_refl) eq_refl eq_refl G)). exists 5%nat. vm_compute. reflexivity.
  - apply (parses_dec camelX osX _ _ _ PB _ _ _ _ (fresh_call [pickS overB] (pickS overB) [3; 9] eq_refl (or_introl eq_refl) eq_refl eq_refl G)). exists 5%nat. vm_compute. reflexivity.
  - intros [H _]. destruct (H "A" (VInt 9) eq_refl) as (v & E & HV). cbn in E. injection E as <-. inversion HV.
Qed.
Print Assumptions C90_overlap_refuted.
