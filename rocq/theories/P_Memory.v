(** Properties C66-C68: what calls of generated methods do to memory.

    The machine of GoMem.v has pointers, slices that share arrays, and capacities;
    [pl : platform] is the word size and how append picks capacities.
    [memCall]: the receiver is at [l] and holds the fields [hfs], whatever its
    pointers and slices lead to; the input and the contexts are anywhere in
    memory, shared with each other and with what the receiver leads to or not.
    [memEnds], [newEndsMem]: how the call of Parse, or of ParseX, ends (MemSpec.v).
    [parses], [fails]: how it ends on the machine without memory. *)
From Coq Require Import ZArith String List Bool Lia.
From Verif Require Import Base Ast IntervalsModel InspectModel InspectSpec InspectProofs GoLang GenModel GenCheck WireSpec GenTerm GenSafe
  PackageSpec PackageProofs PackageFacts PackageMore GenExamples GenWitness GoMem MemMono MemSpec MemTop MemBad MemEnds.
Import ListNotations.
Open Scope string_scope.
Open Scope list_scope.
Open Scope Z_scope.

(** C66. Of the objects that existed, Parse writes to its receiver only: not to the
    input, not to the contexts, not to anything the receiver pointed to. *)
Theorem C66_writes_only_receiver : forall camel os fs r p, package camel os fs r p -> forall pl, word pl = 8 ->
  forall s H l hfs hd data hargs args, validCall camel fs r s (shallowFields hfs) data args -> memCall camel H s l hfs hd data hargs args ->
  ptrFiles fs = true -> narrowFiles fs r -> (exists rank, progress fs r rank) ->
  forall n H' res, hcallMethod pl p n H (HPtr l) hd hargs = (H', res) -> res <> HFuel -> writesOnly l H H'.
Proof.
  intros camel os fs r p PK pl W s H l hfs hd data hargs args VC MC PT NF [rank PR] n H' res E N.
  assert (X : exists H2 res2, memEnds pl p H l hd hargs H2 res2 /\ writesOnly l H H2).
  { destruct (terminates camel os fs r p PK s _ data args VC PT rank PR) as [(fs1 & rest & P)|[(e & P)|(m & n0 & P)]].
    - destruct (mem_parses camel os fs r p PK pl W s H l hfs hd data hargs args fs1 rest VC MC P) as (H2 & hv & hfs1 & E2 & W2 & _). eauto.
    - destruct (mem_fails camel os fs r p PK pl W s H l hfs hd data hargs args e VC MC P) as (H2 & E2 & W2). eauto.
    - exfalso. exact (never_panics camel os fs r p PK s _ data args VC NF n0 m (P n0 (le_n _))). }
  destruct X as (H2 & res2 & E2 & W2). destruct (ends_once p pl n H l hd hargs H' res E N) as [n1 K1]. destruct E2 as [n2 K2].
  specialize (K1 (Nat.max n1 n2) (Nat.le_max_l _ _)). specialize (K2 (Nat.max n1 n2) (Nat.le_max_r _ _)). congruence.
Qed.
Print Assumptions C66_writes_only_receiver.

(** The same for every package and every call that returns. *)
Theorem C66_returning_calls : forall camel os fs r p, package camel os fs r p -> forall pl, word pl = 8 ->
  forall s H l hfs hd data hargs args, validCall camel fs r s (shallowFields hfs) data args -> memCall camel H s l hfs hd data hargs args ->
  (exists fs1 rest, parses camel p s (shallowFields hfs) data args fs1 rest) \/ (exists e, fails camel p s (shallowFields hfs) data args e) ->
  exists H' res, memEnds pl p H l hd hargs H' res /\ writesOnly l H H'.
Proof.
  intros camel os fs r p PK pl W s H l hfs hd data hargs args VC MC [(fs1 & rest & P)|(e & P)].
  - destruct (mem_parses camel os fs r p PK pl W s H l hfs hd data hargs args fs1 rest VC MC P) as (H2 & hv & hfs1 & E2 & W2 & _). eauto.
  - destruct (mem_fails camel os fs r p PK pl W s H l hfs hd data hargs args e VC MC P) as (H2 & E2 & W2). eauto.
Qed.
Print Assumptions C66_returning_calls.

(** ParseX writes to nothing that existed. *)
Theorem C66_new_writes_nothing : forall camel os fs r p, package camel os fs r p -> forall pl, word pl = 8 ->
  forall s H hd data hargs args, validCall camel fs r s (blank camel (Constant r) s) data args -> holdsBytes H hd data -> Forall2 (holdsInts H) hargs args ->
  (exists fs1 rest, parses camel p s (blank camel (Constant r) s) data args fs1 rest) \/ (exists e, fails camel p s (blank camel (Constant r) s) data args e) ->
  exists H' res, newEndsMem pl p (camel (sname s)) H hd hargs H' res /\ writesNothing H H'.
Proof.
  intros camel os fs r p PK pl W s H hd data hargs args VC HB HA [(fs1 & rest & P)|(e & P)].
  - destruct (mem_new camel os fs r p PK pl W s H hd data hargs args fs1 rest VC HB HA P) as (H2 & E2 & W2 & _). eauto.
  - destruct (mem_new_fails camel os fs r p PK pl W s H hd data hargs args e VC HB HA P) as (H2 & E2 & W2). eauto.
Qed.
Print Assumptions C66_new_writes_nothing.

Local Arguments HPtr p%nat.
Local Arguments HSlice base%nat off%nat len%nat cap%nat.
(** The memory of a call of [msg.Parse] on a receiver used before: its pointers lead
    to the object at 3 and its slice More is the input itself. *)
Definition cells : list hval := map HInt ((77 :: msgBytes ++ msgRest) ++ [78; 79]).
Definition usedFields (tag : Z) : amap hval :=
  [("Tag", HInt tag); ("Len", HInt 9); ("Pos", HInt 5); ("P", HPtr 3); ("Q", HPtr 3); ("Name", HStr [1]); ("Words", HNil); ("Count", HInt 7);
   ("Pts", HSlice 0 2 2 2); ("Pair", HArr [HInt 1; HInt 2]); ("More", HSlice 0 1 17 19)].
Definition usedHeap : heap :=
  [OArray cells; OStruct "Opts" [("Extra", HInt 2)]; OStruct "Msg" (usedFields 1); OStruct "Point" [("X", HInt 1); ("Y", HInt 2)]].
Definition usedData : hval := HSlice 0 1 17 19.
Definition wide : platform := mkPlatform 8 (fun n => (2 * n)%nat).
Lemma used_call : validCall camelX demo demoR msg (shallowFields (usedFields 1)) (msgBytes ++ msgRest) [optsV 2] /\
  memCall camelX usedHeap msg 2%nat (usedFields 1) usedData (msgBytes ++ msgRest) [HPtr 1] [optsV 2].
Proof.
  split.
  - destruct (msg_call (msgBytes ++ msgRest) 2 msg_bytes ltac:(lia)) as [D A _ B]. constructor; auto.
    unfold goStruct. cbn. repeat (constructor; [split; [reflexivity|]|]); try constructor; cbn; unfold uintN; eauto;
      try (eexists; split; [reflexivity|]; cbn; lia); try (now left).
    + eexists; split; [reflexivity|]. unfold two63. lia.
  - constructor.
    + reflexivity.
    + exists 0%nat, 1%nat, 19%nat. split; [reflexivity|]. split; [cbn; lia|]. right. exists cells. split; reflexivity.
    + constructor; [|constructor]. exists 1%nat, "Opts", [("Extra", HInt 2)], [("Extra", VInt 2)]. repeat (split; [reflexivity|]).
      constructor; [|constructor]. split; [reflexivity|]. exists 2. auto.
Qed.
Example C66_case : package camelX osX demo demoR demoP /\ word wide = 8 /\ ptrFiles demo = true /\ narrowFiles demo demoR /\ (exists rank, progress demo demoR rank) /\
  validCall camelX demo demoR msg (shallowFields (usedFields 1)) (msgBytes ++ msgRest) [optsV 2] /\
  memCall camelX usedHeap msg 2%nat (usedFields 1) usedData (msgBytes ++ msgRest) [HPtr 1] [optsV 2] /\
  snd (hcallMethod wide demoP 6 usedHeap (HPtr 2) usedData [HPtr 1]) = HRet (HSlice 0 16 2 4) HNil.
Proof.
  split; [exact demo_package|]. split; [reflexivity|]. split; [exact demo_ptr|]. split; [exact demo_narrow|]. split; [exists demoRank; exact demo_progress|].
  split; [apply used_call|]. split; [apply used_call|]. vm_compute. reflexivity.
Qed.

(** C67. After a successful Parse the receiver holds the parsed values in memory
    allocated by the call: no part of it is the input or in older objects.  Where
    the value is nil (an untouched union case) the field may keep a pointer or
    slice that the receiver held.  The rest is a piece of the input slice. *)
Theorem C67_parsed_in_new_memory : forall camel os fs r p, package camel os fs r p -> forall pl, word pl = 8 ->
  forall s H l hfs hd data hargs args, validCall camel fs r s (shallowFields hfs) data args -> memCall camel H s l hfs hd data hargs args ->
  forall fs1 rest, parses camel p s (shallowFields hfs) data args fs1 rest ->
  exists H' hv hfs1, memEnds pl p H l hd hargs H' (HRet hv HNil) /\
    holdsBytes H' hv rest /\ (rest = [] \/ within hv hd) /\
    nth_error H' l = Some (OStruct (camel (sname s)) hfs1) /\ madeFields (List.length H) H' (fieldRefs hfs) hfs1 fs1.
Proof.
  intros camel os fs r p PK pl W s H l hfs hd data hargs args VC MC fs1 rest P.
  destruct (mem_parses camel os fs r p PK pl W s H l hfs hd data hargs args fs1 rest VC MC P) as (H' & hv & hfs1 & A & _ & B & C & D & E & _).
  exists H', hv, hfs1. auto.
Qed.
Print Assumptions C67_parsed_in_new_memory.

(** ParseX returns a tree of new objects: no two fields or elements share memory. *)
Theorem C67_new_tree : forall camel os fs r p, package camel os fs r p -> forall pl, word pl = 8 ->
  forall s H hd data hargs args, validCall camel fs r s (blank camel (Constant r) s) data args -> holdsBytes H hd data -> Forall2 (holdsInts H) hargs args ->
  forall fs1 rest, parses camel p s (blank camel (Constant r) s) data args fs1 rest ->
  exists H' l, newEndsMem pl p (camel (sname s)) H hd hargs H' (HRet (HPtr l) HNil) /\
    made (List.length H) H' [] (HPtr l) (VStruct (camel (sname s)) fs1) /\ tree H' (HPtr l).
Proof.
  intros camel os fs r p PK pl W s H hd data hargs args VC HB HA fs1 rest P.
  destruct (mem_new camel os fs r p PK pl W s H hd data hargs args fs1 rest VC HB HA P) as (H' & A & _ & B & C). eauto 10.
Qed.
Print Assumptions C67_new_tree.

(** So the caller may overwrite the input, or anything else that existed before the
    call, without changing what was parsed. *)
Theorem C67_input_reusable : forall camel os fs r p, package camel os fs r p -> forall pl, word pl = 8 ->
  forall s H hd data hargs args, validCall camel fs r s (blank camel (Constant r) s) data args -> holdsBytes H hd data -> Forall2 (holdsInts H) hargs args ->
  forall fs1 rest, parses camel p s (blank camel (Constant r) s) data args fs1 rest ->
  forall H' hv, newEndsMem pl p (camel (sname s)) H hd hargs H' (HRet hv HNil) ->
  forall H2, (forall k, (List.length H <= k < List.length H')%nat -> nth_error H2 k = nth_error H' k) ->
  made (List.length H) H2 [] hv (VStruct (camel (sname s)) fs1).
Proof.
  intros camel os fs r p PK pl W s H hd data hargs args VC HB HA fs1 rest P H' hv [n1 E] H2 A.
  destruct (mem_new camel os fs r p PK pl W s H hd data hargs args fs1 rest VC HB HA P) as (H0 & [n2 E2] & _ & B & _).
  specialize (E (Nat.max n1 n2) (Nat.le_max_l _ _)). specialize (E2 (Nat.max n1 n2) (Nat.le_max_r _ _)). rewrite E in E2. injection E2 as <- ->.
  destruct (made_agree (List.length H) H' H2 [] A) as (K & _). auto.
Qed.
Print Assumptions C67_input_reusable.

(** A receiver used before may be left with what it held: it is not true that all a
    receiver leads to after Parse is new or the receiver itself. *)
Definition namedBytes : bytes := [2; 3; 65; 66; 0; 0; 0; 0; 0; 0; 4].
Definition namedHeap : heap :=
  [OArray (map HInt namedBytes); OStruct "Opts" [("Extra", HInt 1)]; OStruct "Msg" (usedFields 1); OStruct "Point" [("X", HInt 1); ("Y", HInt 2)]].
Theorem C67_reused_receiver_refuted : exists camel os fs r p pl s H l hfs hd data hargs args H' hv w k,
  package camel os fs r p /\ word pl = 8 /\ validCall camel fs r s (shallowFields hfs) data args /\ memCall camel H s l hfs hd data hargs args /\
  memEnds pl p H l hd hargs H' (HRet hv HNil) /\ leads H' (HPtr l) w k /\ k <> l /\ (k < List.length H)%nat.
Proof.
  exists camelX, osX, demo, demoR, demoP, wide, msg, namedHeap, 2%nat, (usedFields 1), (HSlice 0 0 11 11), namedBytes, [HPtr 1], [optsV 1].
  exists (fst (hcallMethod wide demoP 6 namedHeap (HPtr 2) (HSlice 0 0 11 11) [HPtr 1])), (HSlice 0 11 0 0), [Field "P"], 3%nat.
  assert (GB : goBytes namedBytes) by (apply bytes_ok; vm_compute; reflexivity).
  split; [exact demo_package|]. split; [reflexivity|]. split; [|split; [|split; [|split; [|split; [discriminate|cbn; lia]]]]].
  - destruct (msg_call namedBytes 1 GB ltac:(lia)) as [D A _ B]. destruct used_call as [[_ _ R _] _]. constructor; auto.
  - constructor.
    + reflexivity.
    + exists 0%nat, 0%nat, 11%nat. split; [reflexivity|]. split; [cbn; lia|]. right. exists (map HInt namedBytes). split; reflexivity.
    + constructor; [|constructor]. exists 1%nat, "Opts", [("Extra", HInt 1)], [("Extra", VInt 1)]. repeat (split; [reflexivity|]).
      constructor; [|constructor]. split; [reflexivity|]. exists 1. auto.
  - apply (ends_once demoP wide 6); [|discriminate]. vm_compute. reflexivity.
  - eapply leads_field; [vm_compute; reflexivity|reflexivity|constructor].
Qed.
Print Assumptions C67_reused_receiver_refuted.

Example C67_case : validCall camelX demo demoR msg (blank camelX (Constant demoR) msg) (msgBytes ++ msgRest) [optsV 2] /\
  holdsBytes usedHeap usedData (msgBytes ++ msgRest) /\ Forall2 (holdsInts usedHeap) [HPtr 1] [optsV 2] /\
  parses camelX demoP msg (blank camelX (Constant demoR) msg) (msgBytes ++ msgRest) [optsV 2] msgFields msgRest /\
  snd (hcallCtor wide demoP 6 "Msg" usedHeap usedData [HPtr 1]) = HRet (HPtr 4) HNil.
Proof.
  split; [exact (msg_call _ 2 msg_bytes ltac:(lia))|]. destruct used_call as [_ [_ A B]]. split; [exact A|]. split; [exact B|]. split; [exact msg_parses|].
  vm_compute. reflexivity.
Qed.

(** C68. On a 64-bit platform the machine with memory gives the results that the
    machine without memory gives, whatever append does about capacities.  So all
    that C12-C27 say of calls that return holds on it. *)
Theorem C68_same_results : forall camel os fs r p, package camel os fs r p -> forall pl, word pl = 8 ->
  forall s H l hfs hd data hargs args, validCall camel fs r s (shallowFields hfs) data args -> memCall camel H s l hfs hd data hargs args ->
  (forall fs1 rest, parses camel p s (shallowFields hfs) data args fs1 rest ->
     exists H' hv hfs1, memEnds pl p H l hd hargs H' (HRet hv HNil) /\ holdsBytes H' hv rest /\
       nth_error H' l = Some (OStruct (camel (sname s)) hfs1) /\ madeFields (List.length H) H' (fieldRefs hfs) hfs1 fs1) /\
  (forall e, fails camel p s (shallowFields hfs) data args e -> exists H', memEnds pl p H l hd hargs H' (HRet HNil (HErr e))).
Proof.
  intros camel os fs r p PK pl W s H l hfs hd data hargs args VC MC. split.
  - intros fs1 rest P.
    destruct (mem_parses camel os fs r p PK pl W s H l hfs hd data hargs args fs1 rest VC MC P) as (H' & hv & hfs1 & A & _ & B & C & D & E & _).
    exists H', hv, hfs1. auto.
  - intros e P. destruct (mem_fails camel os fs r p PK pl W s H l hfs hd data hargs args e VC MC P) as (H2 & E2 & W2). eauto.
Qed.
Print Assumptions C68_same_results.

(** Calls that never end on the one machine never end on the other, and calls that
    panic because a slice would be too long do so on the other. *)
Theorem C68_never_ends : forall camel os fs r p, package camel os fs r p -> forall pl, word pl = 8 ->
  forall s H l hfs hd data hargs args, validCall camel fs r s (shallowFields hfs) data args -> memCall camel H s l hfs hd data hargs args ->
  (neverEnds camel p s (shallowFields hfs) data args -> forall n, snd (hcallMethod pl p n H (HPtr l) hd hargs) = HFuel) /\
  (panics camel p s (shallowFields hfs) data args "makeslice: len out of range" -> exists H', memEnds pl p H l hd hargs H' (HPanic "makeslice: len out of range")).
Proof.
  intros camel os fs r p PK pl W s H l hfs hd data hargs args VC MC. split.
  - exact (mem_never camel os fs r p PK pl W s H l hfs hd data hargs args VC MC).
  - exact (mem_too_long camel os fs r p PK pl W s H l hfs hd data hargs args VC MC).
Qed.
Print Assumptions C68_never_ends.

(** With lengths of at most 32 bits nothing else happens on the machine with memory:
    it has ended exactly if the other one has, and then as that one did. *)
Theorem C68_nothing_else : forall camel os fs r p, package camel os fs r p -> forall pl, word pl = 8 ->
  forall s H l hfs hd data hargs args, validCall camel fs r s (shallowFields hfs) data args -> memCall camel H s l hfs hd data hargs args ->
  narrowFiles fs r ->
  (forall n, snd (hcallMethod pl p n H (HPtr l) hd hargs) = HFuel <-> snd (runParse camel p n s (shallowFields hfs) data args) = SFuel) /\
  forall H' res, memEnds pl p H l hd hargs H' res -> res <> HFuel ->
    (exists fs1 rest hv, parses camel p s (shallowFields hfs) data args fs1 rest /\ res = HRet hv HNil) \/
    (exists e, fails camel p s (shallowFields hfs) data args e /\ res = HRet HNil (HErr e)).
Proof.
  intros camel os fs r p PK pl W s H l hfs hd data hargs args VC MC NF. split.
  - exact (mem_ends camel os fs r p PK pl W s H l hfs hd data hargs args VC MC NF).
  - exact (mem_only camel os fs r p PK pl W s H l hfs hd data hargs args VC MC NF).
Qed.
Print Assumptions C68_nothing_else.

(** The struct of C14 that loops for ever, with memory: [list.Parse] on three bytes
    in the middle of an array. *)
Definition loopHeap : heap := [OArray (map HInt [9; 1; 2; 3; 9]); OStruct "List" [("Xs", HNil)]].
Example C68_loop_case : package camelX osX loopFiles (theRes loopFiles) (theProg loopFiles) /\
  validCall camelX loopFiles (theRes loopFiles) listS (shallowFields [("Xs", HNil)]) [1; 2; 3] [] /\
  memCall camelX loopHeap listS 1%nat [("Xs", HNil)] (HSlice 0 1 3 4) [1; 2; 3] [] [] /\
  neverEnds camelX (theProg loopFiles) listS (shallowFields [("Xs", HNil)]) [1; 2; 3] [].
Proof.
  assert (GB : goBytes [1; 2; 3]) by (apply bytes_ok; vm_compute; reflexivity).
  split; [apply package_of; vm_compute; reflexivity|]. split; [|split].
  - change (shallowFields [("Xs", HNil)]) with (blank camelX (Constant (theRes loopFiles)) listS).
    apply fresh_call; auto; try (vm_compute; reflexivity). right; now left.
  - constructor; [reflexivity| |constructor].
    exists 0%nat, 1%nat, 4%nat. split; [reflexivity|]. split; [cbn; lia|]. right. exists (map HInt [9; 1; 2; 3; 9]). split; reflexivity.
  - change (shallowFields [("Xs", HNil)]) with (blank camelX (Constant (theRes loopFiles)) listS). now apply list_loops.
Qed.

(** On a 32-bit platform it does not: by C13 no call panics on the machine without
    memory if lengths have at most 32 bits, but [struct mid { u32 n; u8 a[n]; }]
    panics there. *)
Definition mid : struct := mkStruct "mid" [] (Some [MField "n" (TInt 32 None); MField "a" (TVar (TInt 8 None) (Some (LRef (local "n"))))]).
Definition midData : bytes := [128; 0; 0; 0].
Definition narrow32 : platform := mkPlatform 4 (fun n => (2 * n)%nat).
Theorem C68_32bit_refuted : exists camel os fs r p pl s H l hfs hd data hargs args H' m,
  package camel os fs r p /\ word pl = 4 /\ validCall camel fs r s (shallowFields hfs) data args /\ memCall camel H s l hfs hd data hargs args /\
  ptrFiles fs = true /\ narrowFiles fs r /\ (exists rank, progress fs r rank) /\
  memEnds pl p H l hd hargs H' (HPanic m).
Proof.
  set (hf := [("N", HInt 0); ("A", HNil)]). set (H := [OArray (map HInt midData); OStruct "Mid" hf]).
  exists camelX, osX, (one [mid]), (theRes (one [mid])), (theProg (one [mid])), narrow32, mid, H, 1%nat, hf, (HSlice 0 0 4 4), midData, [], [], (fst (hcallMethod narrow32 (theProg (one [mid])) 3 H (HPtr 1) (HSlice 0 0 4 4) [])), "makeslice: len out of range".
  assert (EATS : forall sz c, 0 < sz / 8 -> eats (Constant (theRes (one [mid]))) (Struct (theRes (one [mid]))) (TInt sz c)) by (intros; now constructor).
  split; [apply package_of; vm_compute; reflexivity|]. split; [reflexivity|]. split; [|split; [|split; [reflexivity|split; [|split]]]].
  - apply (fresh_call [mid] mid midData); auto; try (vm_compute; reflexivity). { now left. } { apply bytes_ok; vm_compute; reflexivity. }
  - constructor; [reflexivity| |constructor].
    exists 0%nat, 0%nat, 4%nat. split; [reflexivity|]. split; [cbn; lia|]. right. exists (map HInt midData). split; reflexivity.
  - intros s D f I. destruct D as (_ & fl & [<-|[]] & [<-|[]]). cbn in I. destruct I as [<-|[]]. split; [|intros E1; exfalso; apply E1; reflexivity].
    intros _ sz cst J. fieldCases J.
  - exists (fun _ => 0%nat). intros s D. destruct D as (_ & fl & [<-|[]] & [<-|[]]). split.
    + intros nm t I. cases I; cbn; auto; try exact Logic.I. 
    + apply G_field; [exact Logic.I|]. left. apply EATS. reflexivity.
  - apply (ends_once _ narrow32 3); [|discriminate]. vm_compute. reflexivity.
Qed.
Print Assumptions C68_32bit_refuted.

Example C68_case : exists H', memEnds wide demoP usedHeap 2%nat usedData [HPtr 1] H' (HRet (HSlice 0 16 2 4) HNil) /\ List.length H' = 9%nat /\
  nth_error H' 2 = Some (OStruct "Msg" [("Tag", HInt 1); ("Len", HInt 4); ("Pos", HInt 2); ("P", HPtr 4); ("Q", HPtr 5); ("Name", HStr [1]); ("Words", HNil);
    ("Count", HInt 1); ("Pts", HSlice 6 0 1 1); ("Pair", HArr [HInt 8; HInt 256]); ("More", HSlice 8 0 2 2)]).
Proof.
  exists (fst (hcallMethod wide demoP 6 usedHeap (HPtr 2) usedData [HPtr 1])). split; [|split].
  - apply (ends_once demoP wide 6); [|discriminate]. vm_compute. reflexivity.
  - vm_compute. reflexivity.
  - vm_compute. reflexivity.
Qed.
