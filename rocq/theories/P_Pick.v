(** Property C99: a union is the members of the case that its tag selects. *)
From Coq Require Import ZArith String List Bool Lia ZifyBool ZifyNat.
From Verif Require Import Base Ast IntervalsModel InspectModel InspectSpec InspectProofs GoLang GenModel GenDecode GenCheck GenSim GenSimBody GenSimProg GenMono WireSpec WireProofs WireComplete WireFacts GenTerm FwdProofs
  PackageSpec PackageProofs PackageFacts PackageMore GenExamples GenWitness IndepSpec UnrollProofs P_Unroll PickProofs.
Import ListNotations.
Open Scope string_scope.
Open Scope list_scope.
Open Scope Z_scope.

(** C99.  Let one struct have a union without a length where another has the members of the case that
    is taken when the tag is [v], or nothing if no case is taken.  Then the data that one of them
    accepts with [v] in the tag are those that the other accepts with [v] in it.  They use up the same
    part, the common fields agree, and the fields of the other cases are as they were. *)
Theorem C99_selected : forall camel os fs r p, package camel os fs r p ->
  forall s s' ms1 cm ms2 u tag cs v, defines fs s -> defines fs s' -> scontexts s' = scontexts s ->
  members_of s = ms1 ++ MUnion u tag None cs :: ms2 -> members_of s' = ms1 ++ cm ++ ms2 ->
  (exists c, takes (Constant r) cs v c /\ cm = ucase_members c) \/ ((forall c, ~ takes (Constant r) cs v c) /\ cm = []) ->
  forall data args, ctxValues camel r s args -> goBytes data ->
  let new := blank camel (Constant r) s in let new' := blank camel (Constant r) s' in
  let same (a a' : amap value) :=
    (forall x t, In (x, t) (flat_map allFields (members_of s')) -> alookup (camel x) a = alookup (camel x) a') /\
    (forall x t, In (x, t) (allFields (MUnion u tag None cs)) -> ~ In (x, t) (flat_map allFields cm) -> alookup (camel x) a = Some (blankOf (Constant r) t)) in
  let tagged a := refers camel (contextsOf s args) a tag v in
  (forall fs1 rest, parses camel p s new data args fs1 rest -> tagged fs1 -> exists fs1', parses camel p s' new' data args fs1' rest /\ tagged fs1' /\ same fs1 fs1') /\
  (forall fs1' rest, parses camel p s' new' data args fs1' rest -> tagged fs1' -> exists fs1, parses camel p s new data args fs1 rest /\ tagged fs1 /\ same fs1 fs1').
Proof.
  intros camel os fs r p PK s s' ms1 cm ms2 u tag cs v DS DS' EC EM EM' TK data args VA VD new new' same tagged.
  exact (pick_parses camel os fs r p PK s s' ms1 cm ms2 u tag cs v DS DS' EC EM EM' TK data args VA VD).
Qed.
Print Assumptions C99_selected.

(** If moreover the tag can be nothing but [v], because it is a field of a context that has [v] in it
    or an earlier integer whose constraint [v] alone meets, then the two structs parse alike in
    every respect. *)
Theorem C99_known : forall camel os fs r p, package camel os fs r p ->
  forall s s' ms1 cm ms2 u tag cs v, defines fs s -> defines fs s' -> scontexts s' = scontexts s ->
  members_of s = ms1 ++ MUnion u tag None cs :: ms2 -> members_of s' = ms1 ++ cm ++ ms2 ->
  (exists c, takes (Constant r) cs v c /\ cm = ucase_members c) \/ ((forall c, ~ takes (Constant r) cs v c) /\ cm = []) ->
  forall data args, ctxValues camel r s args -> goBytes data ->
  (rscope tag = "" /\ exists sz l, In (MField (rname tag) (TInt sz (Some l))) ms1 /\ forall z, in_list (Constant r) l z -> z = v) \/
  (rscope tag <> "" /\ refers camel (contextsOf s args) [] tag v) ->
  let new := blank camel (Constant r) s in let new' := blank camel (Constant r) s' in
  let same (a a' : amap value) :=
    (forall x t, In (x, t) (flat_map allFields (members_of s')) -> alookup (camel x) a = alookup (camel x) a') /\
    (forall x t, In (x, t) (allFields (MUnion u tag None cs)) -> ~ In (x, t) (flat_map allFields cm) -> alookup (camel x) a = Some (blankOf (Constant r) t)) in
  (forall fs1 rest, parses camel p s new data args fs1 rest -> exists fs1', parses camel p s' new' data args fs1' rest /\ same fs1 fs1') /\
  (forall fs1' rest, parses camel p s' new' data args fs1' rest -> exists fs1, parses camel p s new data args fs1 rest /\ same fs1 fs1') /\
  (forall e, fails camel p s new data args e <-> fails camel p s' new' data args e) /\
  (forall m, panics camel p s new data args m <-> panics camel p s' new' data args m) /\
  (neverEnds camel p s new data args <-> neverEnds camel p s' new' data args).
Proof.
  intros camel os fs r p PK s s' ms1 cm ms2 u tag cs v DS DS' EC EM EM' TK data args VA VD ONLY new new' same.
  exact (pick_same camel os fs r p PK s s' ms1 cm ms2 u tag cs v DS DS' EC EM EM' TK data args VA VD ONLY).
Qed.
Print Assumptions C99_known.

(** [struct any { u8 k; union u[k] { 1: u8 a; 2: u16 b; default: fail; }; u8 z; }], and
    [struct two { u8 k; u16 b; u8 z; }]. *)
Definition cs0 := [UCase (Some [mkRange (ILit 1) None]) [u8 "a"]; UCase (Some [mkRange (ILit 2) None]) [MField "b" (TInt 16 None)]; UCase None [MFail]].
Definition anyS := mkStruct "any" [] (Some [u8 "k"; MUnion "u" (local "k") None cs0; u8 "z"]).
Definition twoS := mkStruct "two" [] (Some [u8 "k"; MField "b" (TInt 16 None); u8 "z"]).
Notation at2 := (one [anyS; twoS]).
Lemma any_package : package camelX osX at2 (theRes at2) (theProg at2).
Proof. apply package_of; vm_compute; reflexivity. Qed.
Lemma second_taken : forall r, takes (Constant r) cs0 2 (UCase (Some [mkRange (ILit 2) None]) [MField "b" (TInt 16 None)]).
Proof.
  intros r. left. exists [UCase (Some [mkRange (ILit 1) None]) [u8 "a"]], [UCase None [MFail]]. split; [reflexivity|]. split.
  - exists [mkRange (ILit 2) None]. split; [reflexivity|]. apply inList_spec. reflexivity.
  - constructor; [|constructor]. intros (l & E & H). injection E as <-. apply inList_spec in H. discriminate H.
Qed.
Example C99_case : package camelX osX at2 (theRes at2) (theProg at2) /\ defines at2 anyS /\ defines at2 twoS /\
  members_of anyS = [u8 "k"] ++ MUnion "u" (local "k") None cs0 :: [u8 "z"] /\ members_of twoS = [u8 "k"] ++ [MField "b" (TInt 16 None)] ++ [u8 "z"] /\
  takes (Constant (theRes at2)) cs0 2 (UCase (Some [mkRange (ILit 2) None]) [MField "b" (TInt 16 None)]) /\
  parses camelX (theProg at2) anyS (blank camelX (Constant (theRes at2)) anyS) [2; 1; 3; 9; 5] [] [("K", VInt 2); ("A", VInt 0); ("B", VInt 259); ("Z", VInt 9)] [5] /\
  parses camelX (theProg at2) twoS (blank camelX (Constant (theRes at2)) twoS) [2; 1; 3; 9; 5] [] [("K", VInt 2); ("B", VInt 259); ("Z", VInt 9)] [5].
Proof.
  assert (G : goBytes [2; 1; 3; 9; 5]) by (apply bytes_ok; vm_compute; reflexivity).
  assert (V : forall s, In s [anyS; twoS] -> validCall camelX at2 (theRes at2) s (blank camelX (Constant (theRes at2)) s) [2; 1; 3; 9; 5] []).
  { intros s I. apply (fresh_call [anyS; twoS] s); [vm_compute; reflexivity|exact I|destruct I as [<-|[<-|[]]]; reflexivity|destruct I as [<-|[<-|[]]]; reflexivity|exact G]. }
  split; [exact any_package|]. split; [apply (V anyS); cbn; auto|]. split; [apply (V twoS); cbn; auto|]. split; [reflexivity|]. split; [reflexivity|]. split; [apply second_taken|]. split.
  - apply (parses_dec camelX osX _ _ _ any_package _ _ _ _ (V anyS (or_introl eq_refl))). exists 9%nat. vm_compute. reflexivity.
  - apply (parses_dec camelX osX _ _ _ any_package _ _ _ _ (V twoS (or_intror (or_introl eq_refl)))). exists 9%nat. vm_compute. reflexivity.
Qed.

(** The same with [u8 k IN [2];]. *)
Definition kIn := MField "k" (TInt 8 (Some [mkRange (ILit 2) None])).
Definition any2 := mkStruct "any" [] (Some [kIn; MUnion "u" (local "k") None cs0; u8 "z"]).
Definition two2 := mkStruct "two" [] (Some [kIn; MField "b" (TInt 16 None); u8 "z"]).
Notation at3 := (one [any2; two2]).
Lemma known_package : package camelX osX at3 (theRes at3) (theProg at3).
Proof. apply package_of; vm_compute; reflexivity. Qed.
Example C99_known_case : package camelX osX at3 (theRes at3) (theProg at3) /\ defines at3 any2 /\ defines at3 two2 /\
  members_of any2 = [kIn] ++ MUnion "u" (local "k") None cs0 :: [u8 "z"] /\ members_of two2 = [kIn] ++ [MField "b" (TInt 16 None)] ++ [u8 "z"] /\
  takes (Constant (theRes at3)) cs0 2 (UCase (Some [mkRange (ILit 2) None]) [MField "b" (TInt 16 None)]) /\
  (forall z, in_list (Constant (theRes at3)) [mkRange (ILit 2) None] z -> z = 2) /\
  fails camelX (theProg at3) any2 (blank camelX (Constant (theRes at3)) any2) [2; 1] [] "data too short" /\
  fails camelX (theProg at3) two2 (blank camelX (Constant (theRes at3)) two2) [2; 1] [] "data too short".
Proof.
  assert (G : goBytes [2; 1]) by (apply bytes_ok; vm_compute; reflexivity).
  assert (V : forall s, In s [any2; two2] -> validCall camelX at3 (theRes at3) s (blank camelX (Constant (theRes at3)) s) [2; 1] []).
  { intros s I. apply (fresh_call [any2; two2] s); [vm_compute; reflexivity|exact I|destruct I as [<-|[<-|[]]]; reflexivity|destruct I as [<-|[<-|[]]]; reflexivity|exact G]. }
  split; [exact known_package|]. split; [apply (V any2); cbn; auto|]. split; [apply (V two2); cbn; auto|]. split; [reflexivity|]. split; [reflexivity|]. split; [apply second_taken|]. split; [|split].
  - intros z H. apply inList_spec in H. cbn in H. lia.
  - apply (fails_dec camelX osX _ _ _ known_package _ _ _ _ (V any2 (or_introl eq_refl))). exists 9%nat. vm_compute. reflexivity.
  - apply (fails_dec camelX osX _ _ _ known_package _ _ _ _ (V two2 (or_intror (or_introl eq_refl)))). exists 9%nat. vm_compute. reflexivity.
Qed.
