(** Property C68 on 32-bit platforms.

    [shortFiles]: lengths of arrays and unions come from fields of at most 16 bits,
    and sizes and leftovers that are constants are below 2^31 (WordSpec.v).
    [typedCall], [typedNew]: what memory holds is of the types the package
    declares, numbers of type [int] have 32 bits, and the input is a slice of fewer
    than 2^31 bytes. *)
From Coq Require Import ZArith String List Bool Lia.
From Verif Require Import Base Ast IntervalsModel InspectModel InspectSpec InspectProofs GoLang GenModel GenCheck GenSim GenSimBody WireSpec GenTerm GenSafe
  PackageSpec PackageProofs PackageFacts PackageMore CompileProofs CompileProg GenExamples GenWitness GoMem MemMono MemSpec MemTop MemBad MemEnds P_Memory WordSpec MemWord MemWordGen.
Import ListNotations.
Open Scope string_scope.
Open Scope list_scope.
Open Scope Z_scope.
Local Arguments HPtr p%nat.
Local Arguments HSlice base%nat off%nat len%nat cap%nat.

(** A method does on a 32-bit platform what it does on a 64-bit one, step for step:
    the same objects, the same result. *)
Theorem C68_32bit_same : forall camel os fs r p, package camel os fs r p -> shortFiles fs r -> forall pl, word pl = 4 ->
  forall s H l hd hargs, defines fs s -> typedCall camel p s H l hd hargs ->
  forall n, hcallMethod pl p n H (HPtr l) hd hargs = hcallMethod (mkPlatform 8 (grow pl)) p n H (HPtr l) hd hargs.
Proof.
  intros camel os fs r p PK SH pl W s H l hd hargs D (S & A & B & C & E) n. apply (proj1 (defines_in _ _)) in D.
  destruct (gen_struct _ _ _ _ _ PK s D) as (ds & f & ct & _ & Hf & _ & _ & L & _).
  apply (call_same camel p pl W (methods_short camel os fs r p PK SH) n S H (camel (sname s)) (map (paramK camel) (scontexts s))); auto.
  - now apply gv_ptr.
  - exists f. split; auto. now rewrite (parse_params _ _ _ _ Hf).
  - clear - E. induction E; cbn [map]; constructor; auto.
Qed.
Print Assumptions C68_32bit_same.

(** So does the constructor. *)
Theorem C68_32bit_new : forall camel os fs r p, package camel os fs r p -> shortFiles fs r -> forall pl, word pl = 4 ->
  forall s H hd hargs, defines fs s -> typedNew camel p s H hd hargs ->
  forall n, hcallCtor pl p n (camel (sname s)) H hd hargs = hcallCtor (mkPlatform 8 (grow pl)) p n (camel (sname s)) H hd hargs.
Proof.
  intros camel os fs r p PK SH pl W s H hd hargs D (S & A & C & E) n. apply (proj1 (defines_in _ _)) in D.
  destruct (gen_struct _ _ _ _ _ PK s D) as (ds & f & ct & _ & Hf & Hc & _ & L & LC).
  apply (ctor_same camel p pl W (methods_short camel os fs r p PK SH) (ctors_short camel os fs r p PK) n S H (camel (sname s)) (map (paramK camel) (scontexts s))); auto.
  - exists f. split; auto. now rewrite (parse_params _ _ _ _ Hf).
  - clear - E. induction E; cbn [map]; constructor; auto.
  - intros f' c' L' LC'. rewrite L in L'. rewrite LC in LC'. injection L' as <-. injection LC' as <-. rewrite (parse_params _ _ _ _ Hf).
    unfold ctorFunc in Hc. apply bind_ok in Hc as (rv & _ & Hc). injection Hc as <-. reflexivity.
Qed.
Print Assumptions C68_32bit_new.

(** Hence a 32-bit platform gives the results of the machine without memory, and
    nothing else happens there. *)
Theorem C68_32bit_results : forall camel os fs r p, package camel os fs r p -> shortFiles fs r -> forall pl, word pl = 4 ->
  forall s H l hfs hd data hargs args, validCall camel fs r s (shallowFields hfs) data args -> memCall camel H s l hfs hd data hargs args -> typedCall camel p s H l hd hargs ->
  (forall fs1 rest, parses camel p s (shallowFields hfs) data args fs1 rest ->
     exists H' hv hfs1, memEnds pl p H l hd hargs H' (HRet hv HNil) /\ writesOnly l H H' /\ holdsBytes H' hv rest /\
       nth_error H' l = Some (OStruct (camel (sname s)) hfs1) /\ madeFields (List.length H) H' (fieldRefs hfs) hfs1 fs1) /\
  (forall e, fails camel p s (shallowFields hfs) data args e -> exists H', memEnds pl p H l hd hargs H' (HRet HNil (HErr e)) /\ writesOnly l H H') /\
  (forall n, snd (hcallMethod pl p n H (HPtr l) hd hargs) = HFuel <-> snd (runParse camel p n s (shallowFields hfs) data args) = SFuel) /\
  forall H' res, memEnds pl p H l hd hargs H' res -> res <> HFuel ->
    (exists fs1 rest hv, parses camel p s (shallowFields hfs) data args fs1 rest /\ res = HRet hv HNil) \/
    (exists e, fails camel p s (shallowFields hfs) data args e /\ res = HRet HNil (HErr e)).
Proof.
  intros camel os fs r p PK SH pl W s H l hfs hd data hargs args VC MC TC.
  pose proof (C68_32bit_same camel os fs r p PK SH pl W s H l hd hargs (vc_defined _ _ _ _ _ _ _ VC) TC) as EQ.
  set (pl8 := mkPlatform 8 (grow pl)) in *. assert (W8 : word pl8 = 8) by reflexivity.
  assert (ME : forall H' res, memEnds pl8 p H l hd hargs H' res <-> memEnds pl p H l hd hargs H' res).
  { intros H' res. split; intros [n0 K]; exists n0; intros n N; specialize (K n N); rewrite EQ in *; exact K. }
  assert (NF : narrowFiles fs r).
  { intros s' D f I. destruct (SH s' D) as [A _]. destruct (A f I) as [A1 A2]. split; intros; [left; pose proof (A1 H0 sz cst)|pose proof (A2 H0 c sz cst)]; intuition lia. }
  destruct (C68_nothing_else camel os fs r p PK pl8 W8 s H l hfs hd data hargs args VC MC NF) as [N1 N2].
  split; [|split; [|split]].
  - intros fs1 rest P.
    destruct (mem_parses camel os fs r p PK pl8 W8 s H l hfs hd data hargs args fs1 rest VC MC P) as (H' & hv & hfs1 & A & B & C & D & E & F & _).
    exists H', hv, hfs1. split; [now apply ME|]. auto.
  - intros e P. destruct (mem_fails camel os fs r p PK pl8 W8 s H l hfs hd data hargs args e VC MC P) as (H2 & E2 & W2). exists H2. split; [now apply ME|auto].
  - intros n. rewrite EQ. apply N1.
  - intros H' res E. apply (N2 H'). now apply ME.
Qed.
Print Assumptions C68_32bit_results.

(** A message that was used before, parsed on a 32-bit platform: its slice More is
    the input itself. *)
Definition ownFields : amap hval :=
  [("Tag", HInt 1); ("Len", HInt 9); ("Pos", HInt 5); ("P", HPtr 3); ("Q", HPtr 3); ("Name", HStr [1]); ("Words", HNil); ("Count", HInt 7);
   ("Pts", HSlice 4 0 1 2); ("Pair", HArr [HInt 1; HInt 2]); ("More", HSlice 0 1 17 19)].
Definition ownHeap : heap :=
  [OArray cells; OStruct "Opts" [("Extra", HInt 2)]; OStruct "Msg" ownFields; OStruct "Point" [("X", HInt 1); ("Y", HInt 2)]; OArray [HPtr 3; HNil]].
Definition ownTypes : list otype := [OTarray (GUint 8); OTstruct "Opts"; OTstruct "Msg"; OTstruct "Point"; OTarray (GPtr "Point")].
Lemma fields_typed : forall S ds fs, Forall2 (fun d f => fst d = fst f /\ goVal S (snd d) (snd f)) ds fs ->
  forall f g v, alookup f ds = Some g -> alookup f fs = Some v -> goVal S g v.
Proof.
  intros S ds fs F. induction F as [|[a g0] [b v0] ds fs [E V] F IH]; intros f g v A B; [discriminate|]. cbn [fst snd alookup] in *. subst b.
  destruct (String.eqb f a); [|eauto]. injection A as <-. injection B as <-. exact V.
Qed.
Ltac typedFields := eexists; split; [reflexivity|]; let L := fresh in intros ds f g v L; vm_compute in L; injection L as <-; revert f g v; apply fields_typed;
  repeat (constructor; [split; [reflexivity|]; try (constructor; first [reflexivity|cbn; unfold two31; lia])|]); try constructor.
Lemma own_typed : goHeap (ptypes demoP) ownTypes ownHeap.
Proof.
  constructor; [|constructor; [|constructor; [|constructor; [|constructor; [|constructor]]]]].
  - exists cells. split; [reflexivity|]. intros v I. vm_compute in I. repeat (destruct I as [<-|I]; [constructor; cbn; lia|]). destruct I.
  - typedFields.
  - typedFields. intros v [<-|[<-|[]]]; constructor; cbn; lia.
  - typedFields.
  - eexists. split; [reflexivity|]. intros v [<-|[<-|[]]]; constructor. reflexivity.
Qed.
Lemma demo_short : shortFiles demo demoR.
Proof.
  intros s D. split.
  - intros f I. apply demo_structs in D as [->|[->| ->]]; cbn in I; repeat (destruct I as [<-|I]; [|]); try contradiction;
      split; intros E; try discriminate E; try (exfalso; apply E; reflexivity).
    + intros sz cst J. fieldCases J.
    + intros sz cst J. fieldCases J.
    + intros c sz cst C J. vm_compute in C. injection C as <-. fieldCases J.
  - intros i z I V. apply demo_structs in D as [->|[->| ->]]; cbn in I; repeat (destruct I as [<-|I]; [vm_compute in V; injection V as <-; unfold two31; lia|]); contradiction.
Qed.
Example C68_32bit_case : package camelX osX demo demoR demoP /\ shortFiles demo demoR /\
  validCall camelX demo demoR msg (shallowFields ownFields) (msgBytes ++ msgRest) [optsV 2] /\
  memCall camelX ownHeap msg 2%nat ownFields usedData (msgBytes ++ msgRest) [HPtr 1] [optsV 2] /\ typedCall camelX demoP msg ownHeap 2%nat usedData [HPtr 1] /\
  exists H', memEnds narrow32 demoP ownHeap 2%nat usedData [HPtr 1] H' (HRet (HSlice 0 16 2 4) HNil) /\ List.length H' = 10%nat.
Proof.
  split; [exact demo_package|]. split; [exact demo_short|]. split; [|split; [|split]].
  - destruct used_call as [[D A B C] _]. constructor; auto.
  - constructor.
    + reflexivity.
    + exists 0%nat, 1%nat, 19%nat. split; [reflexivity|]. split; [cbn; lia|]. right. exists cells. split; reflexivity.
    + constructor; [|constructor]. exists 1%nat, "Opts", [("Extra", HInt 2)], [("Extra", VInt 2)]. repeat (split; [reflexivity|]).
      constructor; [|constructor]. split; [reflexivity|]. exists 2. auto.
  - exists ownTypes. split; [exact own_typed|]. split; [reflexivity|]. split.
    + right. exists 0%nat, 1%nat, 17%nat, 19%nat. repeat (split; [reflexivity|]). reflexivity.
    + constructor; [|constructor]. constructor. reflexivity.
  - exists (fst (hcallMethod narrow32 demoP 6 ownHeap (HPtr 2) usedData [HPtr 1])). split.
    + apply (ends_once demoP narrow32 6); [|discriminate]. vm_compute. reflexivity.
    + vm_compute. reflexivity.
Qed.
