(** Property C100: a union with a length is an array of bytes that its case reads. *)
From Coq Require Import ZArith String List Bool Lia ZifyBool ZifyNat.
From Verif Require Import Base Ast IntervalsModel InspectModel InspectSpec InspectProofs GoLang GenModel GenDecode GenCheck GenSim GenSimBody GenSimProg GenMono WireSpec WireProofs WireComplete WireFacts GenTerm FwdProofs
  GroupSpec PackageSpec PackageProofs PackageFacts PackageMore GenExamples GenWitness IndepSpec FrameProofs.
Import ListNotations.
Open Scope string_scope.
Open Scope list_scope.
Open Scope Z_scope.

(** C100, for a reader that does not know the union.  If one struct has a union with a length where
    another has an array of bytes of that length, then what the parser of the first accepts, that of
    the second accepts.  It leaves the same rest and finds the same in the other fields. *)
Theorem C100_opaque : forall camel os fs r p, package camel os fs r p ->
  forall s s' ms1 ms2 u nm tag l cs, defines fs s -> defines fs s' -> scontexts s' = scontexts s ->
  members_of s = ms1 ++ [MUnion u tag (Some l) cs] ++ ms2 -> members_of s' = ms1 ++ [MField nm (TVar (TInt 8 None) (Some l))] ++ ms2 ->
  forall data args, ctxValues camel r s args -> goBytes data -> blen data <= 2 ^ 44 ->
  forall fs1 rest, parses camel p s (blank camel (Constant r) s) data args fs1 rest ->
  exists fs1' w, parses camel p s' (blank camel (Constant r) s') data args fs1' rest /\
    (forall x t, In (x, t) (flat_map allFields (ms1 ++ ms2)) -> alookup (camel x) fs1 = alookup (camel x) fs1') /\
    alookup (camel nm) fs1' = Some (VList (map VInt w)).
Proof.
  intros camel os fs r p PK s s' ms1 ms2 u nm tag l cs DS DS' EC EM EM' data args VA VD SZ.
  exact (frame_opaque camel os fs r p PK s s' ms1 ms2 u nm tag l cs DS DS' EC EM EM' data args VA VD SZ).
Qed.
Print Assumptions C100_opaque.

(** C100.  Let a third struct have the members of the case that is taken when the tag is [v], or none
    if no case is taken, and no positions.  The parser of the first struct accepts data with [v] in
    the tag exactly if that of the second does and that of the third accepts all that is in the array;
    and the fields are those found by the second and the third.  Otherwise, if the array is read but
    the third parser fails on it or leaves something, the first one reports its error or the rest. *)
Theorem C100_exact : forall camel os fs r p, package camel os fs r p ->
  forall s s' t ms1 ms2 u nm tag l cs v, defines fs s -> defines fs s' -> defines fs t -> scontexts s' = scontexts s -> scontexts t = scontexts s ->
  members_of s = ms1 ++ [MUnion u tag (Some l) cs] ++ ms2 -> members_of s' = ms1 ++ [MField nm (TVar (TInt 8 None) (Some l))] ++ ms2 ->
  (exists c, takes (Constant r) cs v c /\ members_of t = ucase_members c) \/ ((forall c, ~ takes (Constant r) cs v c) /\ members_of t = []) ->
  forallb noPtrM (members_of t) = true ->
  forall data args, ctxValues camel r s args -> goBytes data -> blen data <= 2 ^ 44 ->
  let new := blank camel (Constant r) s in let new' := blank camel (Constant r) s' in let newt := blank camel (Constant r) t in
  let tagged a := refers camel (contextsOf s args) a tag v in
  let around (a a' : amap value) := forall x ty, In (x, ty) (flat_map allFields (ms1 ++ ms2)) -> alookup (camel x) a = alookup (camel x) a' in
  let inside (a b : amap value) := forall x ty, In (x, ty) (flat_map allFields (members_of t)) -> alookup (camel x) a = alookup (camel x) b in
  (forall fs1 rest, parses camel p s new data args fs1 rest -> tagged fs1 ->
     exists fs1' w ft, parses camel p s' new' data args fs1' rest /\ tagged fs1' /\ around fs1 fs1' /\ alookup (camel nm) fs1' = Some (VList (map VInt w)) /\
       parses camel p t newt w args ft [] /\ inside fs1 ft) /\
  (forall fs1' rest w ft, parses camel p s' new' data args fs1' rest -> tagged fs1' -> alookup (camel nm) fs1' = Some (VList (map VInt w)) ->
     parses camel p t newt w args ft [] ->
     exists fs1, parses camel p s new data args fs1 rest /\ tagged fs1 /\ around fs1 fs1' /\ inside fs1 ft) /\
  (forall fs1' rest w e, parses camel p s' new' data args fs1' rest -> tagged fs1' -> alookup (camel nm) fs1' = Some (VList (map VInt w)) ->
     fails camel p t newt w args e \/ (e = "trailing data disallowed" /\ exists ft left, parses camel p t newt w args ft left /\ left <> []) ->
     fails camel p s new data args e).
Proof.
  intros camel os fs r p PK s s' t ms1 ms2 u nm tag l cs v DS DS' DT EC ET EM EM' TK NP data args VA VD SZ new new' newt tagged around inside.
  split; [|split].
  - exact (frame_inside camel os fs r p PK s s' ms1 ms2 u nm tag l cs DS DS' EC EM EM' data args VA VD SZ t v DT ET NP TK).
  - exact (frame_back camel os fs r p PK s s' ms1 ms2 u nm tag l cs DS DS' EC EM EM' data args VA VD SZ t v DT ET NP TK).
  - exact (frame_fails camel os fs r p PK s s' ms1 ms2 u nm tag l cs DS DS' EC EM EM' data args VA VD SZ t v DT ET NP TK).
Qed.
Print Assumptions C100_exact.

(** [struct cell { u8 k; u8 n; union u[k] with length n { 1: u8 a; u8 b[]; default: ignore; }; u8 z; }],
    [struct raw { u8 k; u8 n; u8 body[n]; u8 z; }] and [struct first { u8 a; u8 b[]; }]. *)
Definition firstMs := [u8 "a"; MField "b" (TVar (TInt 8 None) None)].
Definition cellCs := [UCase (Some [mkRange (ILit 1) None]) firstMs; UCase None [MIgnore]].
Definition cellS := mkStruct "cell" [] (Some [u8 "k"; u8 "n"; MUnion "u" (local "k") (Some (LRef (local "n"))) cellCs; u8 "z"]).
Definition rawS := mkStruct "raw" [] (Some [u8 "k"; u8 "n"; MField "body" (TVar (TInt 8 None) (Some (LRef (local "n")))); u8 "z"]).
Definition firstS := mkStruct "first" [] (Some firstMs).
Notation cr := (one [cellS; rawS; firstS]).
Lemma cell_package : package camelX osX cr (theRes cr) (theProg cr).
Proof. apply package_of; vm_compute; reflexivity. Qed.
Example C100_case : package camelX osX cr (theRes cr) (theProg cr) /\ defines cr cellS /\ defines cr rawS /\ defines cr firstS /\
  members_of cellS = [u8 "k"; u8 "n"] ++ [MUnion "u" (local "k") (Some (LRef (local "n"))) cellCs] ++ [u8 "z"] /\
  members_of rawS = [u8 "k"; u8 "n"] ++ [MField "body" (TVar (TInt 8 None) (Some (LRef (local "n"))))] ++ [u8 "z"] /\
  (exists c, takes (Constant (theRes cr)) cellCs 1 c /\ members_of firstS = ucase_members c) /\ forallb noPtrM (members_of firstS) = true /\
  parses camelX (theProg cr) cellS (blank camelX (Constant (theRes cr)) cellS) [1; 3; 7; 8; 9; 5; 6] []
    [("K", VInt 1); ("N", VInt 3); ("A", VInt 7); ("B", VList [VInt 8; VInt 9]); ("Z", VInt 5)] [6] /\
  parses camelX (theProg cr) rawS (blank camelX (Constant (theRes cr)) rawS) [1; 3; 7; 8; 9; 5; 6] []
    [("K", VInt 1); ("N", VInt 3); ("Body", VList (map VInt [7; 8; 9])); ("Z", VInt 5)] [6] /\
  parses camelX (theProg cr) firstS (blank camelX (Constant (theRes cr)) firstS) [7; 8; 9] [] [("A", VInt 7); ("B", VList [VInt 8; VInt 9])] [] /\
  parses camelX (theProg cr) rawS (blank camelX (Constant (theRes cr)) rawS) [1; 0; 5; 6] [] [("K", VInt 1); ("N", VInt 0); ("Body", VList (map VInt [])); ("Z", VInt 5)] [6] /\
  fails camelX (theProg cr) firstS (blank camelX (Constant (theRes cr)) firstS) [] [] "data too short" /\
  fails camelX (theProg cr) cellS (blank camelX (Constant (theRes cr)) cellS) [1; 0; 5; 6] [] "data too short".
Proof.
  assert (V : forall s d, In s [cellS; rawS; firstS] -> goBytes d -> validCall camelX cr (theRes cr) s (blank camelX (Constant (theRes cr)) s) d []).
  { intros s d I G. apply (fresh_call [cellS; rawS; firstS] s); [vm_compute; reflexivity|exact I|destruct I as [<-|[<-|[<-|[]]]]; reflexivity|destruct I as [<-|[<-|[<-|[]]]]; reflexivity|exact G]. }
  assert (G : goBytes [1; 3; 7; 8; 9; 5; 6]) by (apply bytes_ok; vm_compute; reflexivity).
  assert (G1 : goBytes [7; 8; 9]) by (apply bytes_ok; vm_compute; reflexivity).
  assert (G2 : goBytes [1; 0; 5; 6]) by (apply bytes_ok; vm_compute; reflexivity).
  assert (G3 : goBytes []) by (apply bytes_ok; vm_compute; reflexivity).
  split; [exact cell_package|]. split; [apply (V cellS _ ltac:(cbn; auto) G)|]. split; [apply (V rawS _ ltac:(cbn; auto) G)|]. split; [apply (V firstS _ ltac:(cbn; auto) G)|].
  split; [reflexivity|]. split; [reflexivity|]. split; [|split; [reflexivity|]].
  - exists (UCase (Some [mkRange (ILit 1) None]) firstMs). split; [|reflexivity]. left. exists [], [UCase None [MIgnore]]. split; [reflexivity|]. split; [|constructor].
    exists [mkRange (ILit 1) None]. split; [reflexivity|]. apply inList_spec. reflexivity.
  - split; [apply (parses_dec camelX osX _ _ _ cell_package _ _ _ _ (V cellS _ ltac:(cbn; auto) G)); exists 9%nat; vm_compute; reflexivity|].
    split; [apply (parses_dec camelX osX _ _ _ cell_package _ _ _ _ (V rawS _ ltac:(cbn; auto) G)); exists 9%nat; vm_compute; reflexivity|].
    split; [apply (parses_dec camelX osX _ _ _ cell_package _ _ _ _ (V firstS _ ltac:(cbn; auto) G1)); exists 9%nat; vm_compute; reflexivity|].
    split; [apply (parses_dec camelX osX _ _ _ cell_package _ _ _ _ (V rawS _ ltac:(cbn; auto) G2)); exists 9%nat; vm_compute; reflexivity|].
    split; [apply (fails_dec camelX osX _ _ _ cell_package _ _ _ _ (V firstS _ ltac:(cbn; auto) G3)); exists 9%nat; vm_compute; reflexivity|].
    apply (fails_dec camelX osX _ _ _ cell_package _ _ _ _ (V cellS _ ltac:(cbn; auto) G2)); exists 9%nat; vm_compute; reflexivity.
Qed.

(** In general a position in the case is not that in the array: the generated code takes it from the
    start of the data and counts what is left in the union only. *)
Definition posMs := [u8 "a"; MField "b" TPtr].
Definition posCs := [UCase (Some [mkRange (ILit 1) None]) posMs].
Definition posS := mkStruct "cell" [] (Some [u8 "k"; u8 "n"; MUnion "u" (local "k") (Some (LRef (local "n"))) posCs; u8 "z"]).
Definition posT := mkStruct "first" [] (Some posMs).
Notation pr := (one [posS; rawS; posT]).
Lemma pos_package : package camelX osX pr (theRes pr) (theProg pr).
Proof. apply package_of; vm_compute; reflexivity. Qed.
(** Without the condition on positions the fields differ. *)
Theorem C100_positions_refuted : exists camel os fs r p s s' t ms1 ms2 u nm tag l cs v data fs1 fs1' rest w ft x,
  package camel os fs r p /\ defines fs s /\ defines fs s' /\ defines fs t /\
  members_of s = ms1 ++ [MUnion u tag (Some l) cs] ++ ms2 /\ members_of s' = ms1 ++ [MField nm (TVar (TInt 8 None) (Some l))] ++ ms2 /\
  (exists c, takes (Constant r) cs v c /\ members_of t = ucase_members c) /\ goBytes data /\
  parses camel p s (blank camel (Constant r) s) data [] fs1 rest /\ refers camel [] fs1 tag v /\
  parses camel p s' (blank camel (Constant r) s') data [] fs1' rest /\ alookup (camel nm) fs1' = Some (VList (map VInt w)) /\
  parses camel p t (blank camel (Constant r) t) w [] ft [] /\
  In (x, TPtr) (flat_map allFields (members_of t)) /\ alookup (camel x) fs1 <> alookup (camel x) ft.
Proof.
  assert (V : forall s d, In s [posS; rawS; posT] -> goBytes d -> validCall camelX pr (theRes pr) s (blank camelX (Constant (theRes pr)) s) d []).
  { intros s d I G. apply (fresh_call [posS; rawS; posT] s); [vm_compute; reflexivity|exact I|destruct I as [<-|[<-|[<-|[]]]]; reflexivity|destruct I as [<-|[<-|[<-|[]]]]; reflexivity|exact G]. }
  assert (G : goBytes [1; 1; 7; 5; 6]) by (apply bytes_ok; vm_compute; reflexivity).
  assert (G1 : goBytes [7]) by (apply bytes_ok; vm_compute; reflexivity).
  exists camelX, osX, pr, (theRes pr), (theProg pr), posS, rawS, posT, [u8 "k"; u8 "n"], [u8 "z"], "u", "body", (local "k"), (LRef (local "n")), posCs, 1, [1; 1; 7; 5; 6],
    [("K", VInt 1); ("N", VInt 1); ("A", VInt 7); ("B", VInt 5); ("Z", VInt 5)], [("K", VInt 1); ("N", VInt 1); ("Body", VList (map VInt [7])); ("Z", VInt 5)], [6], [7], [("A", VInt 7); ("B", VInt 1)], "b".
  split; [exact pos_package|]. split; [apply (V posS _ ltac:(cbn; auto) G)|]. split; [apply (V rawS _ ltac:(cbn; auto) G)|]. split; [apply (V posT _ ltac:(cbn; auto) G)|].
  split; [reflexivity|]. split; [reflexivity|]. split; [|split; [exact G|]].
  - exists (UCase (Some [mkRange (ILit 1) None]) posMs). split; [|reflexivity]. left. exists [], []. split; [reflexivity|]. split; [|constructor].
    exists [mkRange (ILit 1) None]. split; [reflexivity|]. apply inList_spec. reflexivity.
  - split; [apply (parses_dec camelX osX _ _ _ pos_package _ _ _ _ (V posS _ ltac:(cbn; auto) G)); exists 9%nat; vm_compute; reflexivity|].
    split; [reflexivity|].
    split; [apply (parses_dec camelX osX _ _ _ pos_package _ _ _ _ (V rawS _ ltac:(cbn; auto) G)); exists 9%nat; vm_compute; reflexivity|].
    split; [reflexivity|].
    split; [apply (parses_dec camelX osX _ _ _ pos_package _ _ _ _ (V posT _ ltac:(cbn; auto) G1)); exists 9%nat; vm_compute; reflexivity|].
    split; [cbn; auto|]. vm_compute. discriminate.
Qed.
Print Assumptions C100_positions_refuted.
