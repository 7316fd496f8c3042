(** The test vectors reach the cases of unions. *)
From Coq Require Import ZArith String List Bool Lia Permutation.
From Verif Require Import Base Ast IntervalsModel InspectModel InspectSpec InspectProofs GoLang GenModel GenCheck WireSpec WireProofs WireComplete WireFacts
  PackageSpec PackageProofs PackageFacts PackageMore ResDet TvLeaf TvModel TvConstraints TvClass TvGood TvFields TvSound TvBytes TvDet TvAccept TvLive TvCover GenExamples GenWitness TvWitness.
Import ListNotations.
Open Scope string_scope.
Open Scope list_scope.
Open Scope Z_scope.

Section Covered.
Variable camel : string -> string.
Variable os : nat -> orders.
Variable fs : list file.
Variable r : resolver.
Variable p : program.
Hypothesis PK : package camel os fs r p.
Variable gr sg : string -> bool.
Hypothesis CL : classFiles camel r gr sg fs = true.
Variable lim : Z.
Hypothesis LF : lensFiles lim fs = true.
Hypothesis LM : lim <= maxData.
Variable pl al : string -> bool.
Hypothesis LV : liveFiles pl al fs = true.

Lemma live_defined : forall nm s, StructNonExtern r nm = Ok s -> sname s = nm /\ In s (definedStructs fs).
Proof.
  intros nm s H. unfold StructNonExtern in H. destruct (Struct r nm) as [s'|] eqn:E; [|discriminate]. destruct (Extern s') eqn:X; [discriminate|].
  injection H as ->. exact (pk_res camel os fs r p PK _ _ E X).
Qed.
Lemma live_plain : forall nm s, StructNonExtern r nm = Ok s -> pl nm = true -> forallb (plainM pl) (members_of s) = true.
Proof.
  intros nm s H P. destruct (live_defined nm s H) as (N & I). pose proof LV as L. unfold liveFiles in L. rewrite forallb_forall in L. specialize (L s I).
  rewrite N, P in L. cbn [implb] in L. now apply andb_true_iff in L.
Qed.
Lemma live_all : forall s, In s (definedStructs fs) -> al (sname s) = true -> liveMs pl al (members_of s) = true.
Proof.
  intros s I A. pose proof LV as L. unfold liveFiles in L. rewrite forallb_forall in L. specialize (L s I). rewrite A in L. cbn [implb] in L. now apply andb_true_iff in L.
Qed.
Lemma live_res : forall nm s, StructNonExtern r nm = Ok s -> al nm = true -> liveMs pl al (members_of s) = true.
Proof. intros nm s H A. destruct (live_defined nm s H) as (N & I). apply live_all; auto. now rewrite N. Qed.

Theorem nonempty : forall grow ords sel n rn c, (forall k, goodOrders (ords k)) -> (forall k vs, exists rest, Permutation (sel k vs ++ rest) vs) ->
  (forall k vs, vs <> [] -> sel k vs <> []) ->
  forall os', all_valid os' -> GenerateFiles grow ords sel os' n fs rn = Ok c ->
  forall s, defines fs s -> al (sname s) = true -> exists u, In u c /\ stype u = sname s /\ svectors u <> [].
Proof.
  intros grow ords sel n rn c O SE NE os' V' G s D A.
  pose proof (vectors_same grow ords ords sel os' os n fs rn O O V' (pk_orders _ _ _ _ _ PK)) as SM. rewrite G in SM.
  destruct (GenerateFiles grow ords sel os n fs rn) as [c'|e|m|] eqn:G'; cbn in SM; try contradiction.
  apply defines_in in D.
  destruct (corpus_keep camel r False lim gr sg grow ords O sel SE NE (class_struct camel os fs r p PK gr sg CL lim LF) pl al live_plain live_res os n fs rn c' s (fun _ _ => True)
    (pk_resolved _ _ _ _ _ PK) CL LF G' D) as (su & I & T & v & Iv & _).
  { intros OK g vs g' IG H. 
    pose proof (structure_live camel r False lim gr sg grow ords O sel SE NE (class_struct camel os fs r p PK gr sg CL lim LF) pl al live_plain live_res n s OK (live_all s D A) g vs g' IG H) as S.
    destruct vs as [|v vs]; [now destruct S|]. exists v. split; [now left|auto]. }
  destruct (forall2_in_r _ _ _ _ SM I) as (su' & I' & T' & F). exists su'. split; auto. split; [congruence|].
  intros Z. rewrite Z in F. destruct (forall2_in_r _ _ _ _ F Iv) as (? & [] & _).
Qed.

Hypothesis PT : ptrFiles fs = true.
Hypothesis SO : roomyFiles fs r.
Theorem covered : forall grow ords sel n rn c, (forall k, goodOrders (ords k)) -> (forall k vs, Permutation (sel k vs) vs) ->
  forall os', all_valid os' -> GenerateFiles grow ords sel os' n fs rn = Ok c ->
  forall s, defines fs s -> al (sname s) = true ->
  forall pre u tag len cs post uc, members_of s = pre ++ MUnion u tag len cs :: post -> In uc cs -> liveCase pl (refsMs post) tag len uc = true ->
  exists su d k, In su c /\ stype su = sname s /\ In (d, k) (svectors su) /\
    exists x, takes (Constant r) cs x uc /\
    (blen d < lim -> forall fs0 args, ctxValues camel r s args -> goStruct camel r s fs0 -> meets camel s args k ->
      exists fs1, parses camel p s fs0 d args fs1 [] /\ alookup (camel (rname tag)) fs1 = Some (VInt x)).
Proof.
  intros grow ords sel n rn c O SP os' V' G s D A pre u tag len cs post uc E Iu LC.
  assert (SE : forall k vs, exists rest, Permutation (sel k vs ++ rest) vs) by (intros k vs; exists []; rewrite app_nil_r; auto).
  assert (SN : forall k vs, some vs -> some (sel k vs)).
  { intros k vs S Z. apply S. specialize (SP k vs). rewrite Z in SP. now apply Permutation_nil in SP. }
  assert (SA : forall k vs v, In v vs -> In v (sel k vs)) by (intros k vs v I; eapply Permutation_in; [symmetry; apply SP|auto]).
  pose proof (vectors_same grow ords ords sel os' os n fs rn O O V' (pk_orders _ _ _ _ _ PK)) as SM. rewrite G in SM.
  destruct (GenerateFiles grow ords sel os n fs rn) as [c'|e|m|] eqn:G'; cbn in SM; try contradiction.
  pose proof D as D'. apply defines_in in D'. pose proof (class_struct camel os fs r p PK gr sg CL lim LF) as CS.
  destruct (corpus_keep camel r False lim gr sg grow ords O sel SE SN CS pl al live_plain live_res os n fs rn c' s (covers camel r False lim gr s tag cs uc)
    (pk_resolved _ _ _ _ _ PK) CL LF G' D') as (su & I & T & (d, k') & Iv & CO).
  { intros OK g vs g' IG H.
    exact (structure_cover camel r False lim gr sg grow ords O sel SE SN CS pl al live_plain live_res SA n s pre u tag len cs post uc OK (live_all s D' A) E Iu LC g vs g' IG H). }
  destruct (forall2_in_r _ _ _ _ SM I) as (su' & I' & T' & F). destruct (forall2_in_r _ _ _ _ F Iv) as ([d' k] & D1 & ED & S').
  cbn [fst snd] in *. subst d'. exists su', d, k. split; auto. split; [congruence|]. split; auto.
  destruct CO as (x & X1 & X2). exists x. split; auto. intros L fs0 args HA HR HM.
  assert (GB : goBytes d).
  { split; [|unfold maxData, two63 in *; lia]. pose proof (vectors_bytes _ _ _ _ _ _ _ _ G) as B. rewrite Forall_forall in B. specialize (B _ I'). cbn beta in B.
    rewrite Forall_forall in B. apply (B _ D1). }
  assert (VC : validCall camel fs r s fs0 d args) by (constructor; auto).
  destruct (X2 L (contextsOf s args) fs0 0 []) as (fs1 & EN & AT); auto.
  - eapply call_world; eauto.
  - intros y q z Y _ K. destruct S' as (_ & _ & _ & _ & S'). rewrite <- S' in K. apply HM; auto.
  - exists fs1. split; auto. eapply (encodes_parses camel os fs r p PK s fs0 d args VC PT SO); [lia|symmetry; apply app_nil_r|exact EN].
Qed.
End Covered.

(** [struct two { u8 t; union a[t] { 1: u8 x; }; union b[t] { 2: u8 y; }; }] *)
Definition two : struct := mkStruct "two" [] (Some
  [u8 "t"; MUnion "a" (local "t") None [UCase (is 1) [u8 "x"]]; MUnion "b" (local "t") None [UCase (is 2) [u8 "y"]]]).
Definition twoFiles : list file := one [two].
(** [struct busy { u8 t; union u[t] { 100: u8 a; default: u8 b; }; u8 x[t]; }] *)
Definition busyCases : list ucase := [UCase (is 100) [u8 "a"]; UCase None [u8 "b"]].
Definition busy : struct := mkStruct "busy" [] (Some
  [u8 "t"; MUnion "u" (local "t") None busyCases; MField "x" (TVar (TInt 8 None) (Some (LRef (local "t"))))]).
Definition busyFiles : list file := one [busy].

(** The struct has no vector, though its parser takes input for the first case of
    the union [a]. *)
Lemma two_none : package camelX osX twoFiles (theRes twoFiles) (theProg twoFiles) /\ classFiles camelX (theRes twoFiles) noneGreedy noneGreedy twoFiles = true /\
  defines twoFiles two /\ GenerateFiles goGrow (fun _ => uoX) allOf osX 50 twoFiles rngX = Ok [mkSuite "two" []] /\
  exists fs1, parses camelX (theProg twoFiles) two (blank camelX (Constant (theRes twoFiles)) two) [1; 7] [] fs1 [] /\ alookup "T" fs1 = Some (VInt 1).
Proof.
  assert (P : package camelX osX twoFiles (theRes twoFiles) (theProg twoFiles)) by (apply package_of; vm_compute; reflexivity).
  split; auto. split; [vm_compute; reflexivity|]. split; [apply one_defines; [now left|reflexivity]|]. split; [vm_compute; reflexivity|].
  eexists. split.
  - apply (parses_dec camelX osX twoFiles _ _ P).
    + apply fresh_call; auto; try (vm_compute; reflexivity). { now left. } { apply bytes_ok; vm_compute; reflexivity. }
    + exists 5%nat. vm_compute. reflexivity.
  - reflexivity.
Qed.
(** The only vector has the tag 1. *)
Lemma busy_other : package camelX osX busyFiles (theRes busyFiles) (theProg busyFiles) /\ classFiles camelX (theRes busyFiles) noneGreedy noneGreedy busyFiles = true /\
  defines busyFiles busy /\ GenerateFiles goGrow (fun _ => uoX) allOf osX 50 busyFiles rngX = Ok [mkSuite "busy" [([1; 156; 167], [])]] /\
  (forall fs1, parses camelX (theProg busyFiles) busy (blank camelX (Constant (theRes busyFiles)) busy) [1; 156; 167] [] fs1 [] -> alookup "T" fs1 = Some (VInt 1)) /\
  ~ takes (Constant (theRes busyFiles)) busyCases 1 (UCase (is 100) [u8 "a"]) /\
  exists fs1, parses camelX (theProg busyFiles) busy (blank camelX (Constant (theRes busyFiles)) busy) ([100; 7] ++ repeat 9 100) [] fs1 [] /\ alookup "T" fs1 = Some (VInt 100).
Proof.
  assert (P : package camelX osX busyFiles (theRes busyFiles) (theProg busyFiles)) by (apply package_of; vm_compute; reflexivity).
  split; auto. split; [vm_compute; reflexivity|]. split; [apply one_defines; [now left|reflexivity]|]. split; [vm_compute; reflexivity|].
  split; [|split].
  - assert (VC : validCall camelX busyFiles (theRes busyFiles) busy (blank camelX (Constant (theRes busyFiles)) busy) [1; 156; 167] []).
    { apply fresh_call; auto; try (vm_compute; reflexivity). { now left. } { apply bytes_ok; vm_compute; reflexivity. } }
    assert (exists fs2, parses camelX (theProg busyFiles) busy (blank camelX (Constant (theRes busyFiles)) busy) [1; 156; 167] [] fs2 [] /\ alookup "T" fs2 = Some (VInt 1)) as (fs2 & Q & T).
    { eexists. split; [apply (parses_dec camelX osX busyFiles _ _ P _ _ _ _ VC); exists 10%nat; vm_compute; reflexivity|]. reflexivity. }
    intros fs1 H. destruct (parses_fun camelX osX busyFiles _ _ P _ _ _ _ VC _ _ _ _ H Q) as (-> & _). auto.
  - intros [(a & b & E & M & _)|(_ & _ & E)]; [|discriminate]. destruct M as (l & L & M). injection L as <-. destruct M as (g & x & y & [<-|[]] & B & C). cbn in B. injection B as <- <-. lia.
  - eexists. split.
    + apply (parses_dec camelX osX busyFiles _ _ P).
      * apply fresh_call; auto; try (vm_compute; reflexivity). { now left. } { apply bytes_ok; vm_compute; reflexivity. }
      * exists 110%nat. vm_compute. reflexivity.
    + reflexivity.
Qed.
(** Every case of the union of [pkt] has vectors. *)
Lemma cls_live : liveFiles eltSingle (fun _ => true) clsFiles = true /\
  exists pre u tag len cs post, members_of pkt = pre ++ MUnion u tag len cs :: post /\ List.length cs = 3%nat /\
    forallb (liveCase eltSingle (refsMs post) tag len) cs = true.
Proof.
  split; [vm_compute; reflexivity|]. exists (firstn 5 (members_of pkt)). do 5 eexists. split; [reflexivity|]. split; reflexivity.
Qed.
