(** Property C59: the test vectors exercise what a declaration can describe. *)
From Coq Require Import ZArith String List Bool Lia Permutation.
From Verif Require Import Base Ast IntervalsModel InspectModel InspectSpec InspectProofs BranchProofs GoLang GenModel GenCheck WireComplete
  WireSpec PackageSpec PackageProofs PackageFacts GenExamples GenWitness TvModel TvConstraints TvWitness TvBytes TvClass TvLive TvAccept TvCovered.
Import ListNotations.
Open Scope string_scope.
Open Scope list_scope.
Open Scope Z_scope.

(** C59 is false: a struct may have no vectors though its parser accepts input,
    and a union may have cases that no vector selects though the parser accepts
    input for them.  In both examples the selector keeps everything. *)
Theorem C59_no_vectors_refuted : exists fs r p s, package camelX osX fs r p /\ classFiles camelX r noneGreedy noneGreedy fs = true /\ defines fs s /\
  GenerateFiles goGrow (fun _ => uoX) allOf osX 50 fs rngX = Ok [mkSuite (sname s) []] /\
  exists d fs1, parses camelX p s (blank camelX (Constant r) s) d [] fs1 [].
Proof.
  exists twoFiles, (theRes twoFiles), (theProg twoFiles), two. destruct two_none as (A & B & C & D & fs1 & E & _).
  split; auto. split; auto. split; auto. split; auto. exists [1; 7], fs1. exact E.
Qed.
Print Assumptions C59_no_vectors_refuted.
Theorem C59_case_missed_refuted : exists fs r p s tag cs uc, package camelX osX fs r p /\ classFiles camelX r noneGreedy noneGreedy fs = true /\ defines fs s /\
  (exists pre u post, members_of s = pre ++ MUnion u tag None cs :: post) /\ In uc cs /\
  (exists c, GenerateFiles goGrow (fun _ => uoX) allOf osX 50 fs rngX = Ok c /\ (exists su, In su c /\ svectors su <> []) /\
    forall su d k, In su c -> In (d, k) (svectors su) ->
      exists x, ~ takes (Constant r) cs x uc /\
        forall fs1, parses camelX p s (blank camelX (Constant r) s) d [] fs1 [] -> alookup (camelX (rname tag)) fs1 = Some (VInt x)) /\
  exists d fs1 x, parses camelX p s (blank camelX (Constant r) s) d [] fs1 [] /\ alookup (camelX (rname tag)) fs1 = Some (VInt x) /\ takes (Constant r) cs x uc.
Proof.
  exists busyFiles, (theRes busyFiles), (theProg busyFiles), busy, (local "t"), busyCases, (UCase (is 100) [u8 "a"]).
  destruct busy_other as (A & B & C & D & E & F & fs1 & G & H).
  split; auto. split; auto. split; auto. split; [exists [u8 "t"]; do 2 eexists; reflexivity|]. split; [now left|]. split.
  - eexists. split; [exact D|]. split; [eexists; split; [now left|discriminate]|]. intros su d k [<-|[]] [I|[]]. injection I as <- <-. exists 1. split; auto.
  - exists ([100; 7] ++ repeat 9 100), fs1, 100. split; auto. split; auto. left. exists [], [UCase None [u8 "b"]]. split; auto. split; [|constructor].
    eexists. split; [reflexivity|]. do 3 eexists. split; [now left|]. split; [reflexivity|]. lia.
Qed.
Print Assumptions C59_case_missed_refuted.

(** C59 for declarations that pass the check of TvLive.v ([pl], [al] label the
    structs): every struct labelled by [al] has vectors, whatever the selector
    leaves out, as long as it leaves something. *)
Theorem C59_vectors_exist_partial : forall camel os fs r p, package camel os fs r p ->
  forall gr sg, classFiles camel r gr sg fs = true -> forall lim, lensFiles lim fs = true ->
  forall pl al, liveFiles pl al fs = true ->
  forall grow ords sel n rn c, (forall k, goodOrders (ords k)) -> (forall k vs, exists rest, Permutation (sel k vs ++ rest) vs) ->
  (forall k vs, vs <> [] -> sel k vs <> []) ->
  forall os', all_valid os' -> GenerateFiles grow ords sel os' n fs rn = Ok c ->
  forall s, defines fs s -> al (sname s) = true -> exists u, In u c /\ stype u = sname s /\ svectors u <> [].
Proof. exact nonempty. Qed.
Print Assumptions C59_vectors_exist_partial.

(** If the selector leaves out nothing, then every case of a union in such a
    struct that passes the check has a vector: the generated parser, given the
    vector and contexts with the recorded values, stores a tag that takes this
    case (for vectors shorter than the limit of C31). *)
Theorem C59_cases_reached_partial : forall camel os fs r p, package camel os fs r p ->
  forall gr sg, classFiles camel r gr sg fs = true -> forall lim, lensFiles lim fs = true -> lim <= maxData ->
  forall pl al, liveFiles pl al fs = true -> ptrFiles fs = true -> roomyFiles fs r ->
  forall grow ords sel n rn c, (forall k, goodOrders (ords k)) -> (forall k vs, Permutation (sel k vs) vs) ->
  forall os', all_valid os' -> GenerateFiles grow ords sel os' n fs rn = Ok c ->
  forall s, defines fs s -> al (sname s) = true ->
  forall pre u tag len cs post uc, members_of s = pre ++ MUnion u tag len cs :: post -> In uc cs -> liveCase pl (refsMs post) tag len uc = true ->
  exists su d k, In su c /\ stype su = sname s /\ In (d, k) (svectors su) /\
    exists x, takes (Constant r) cs x uc /\
    (blen d < lim -> forall fs0 args, ctxValues camel r s args -> goStruct camel r s fs0 -> meets camel s args k ->
      exists fs1, parses camel p s fs0 d args fs1 [] /\ alookup (camel (rname tag)) fs1 = Some (VInt x)).
Proof. exact covered. Qed.
Print Assumptions C59_cases_reached_partial.
Example C59_case : package camelX osX clsFiles clsR clsP /\ classFiles camelX clsR noneGreedy eltSingle clsFiles = true /\
  lensFiles 65536 clsFiles = true /\ ptrFiles clsFiles = true /\ solidFiles clsFiles clsR /\ all_valid osX /\
  GenerateFiles goGrow (fun _ => uoX) allOf osX 50 clsFiles rngX = Ok (corpusOf goGrow clsFiles) /\
  liveFiles eltSingle (fun _ => true) clsFiles = true /\
  (exists pre u tag len cs post, members_of pkt = pre ++ MUnion u tag len cs :: post /\ List.length cs = 3%nat /\
    forallb (liveCase eltSingle (refsMs post) tag len) cs = true) /\
  forallb (fun u => forallb (fun v => blen (fst v) <? 65536) (svectors u)) (corpusOf goGrow clsFiles) = true.
Proof.
  split; [exact cls_package|]. split; [exact cls_class|]. split; [reflexivity|]. split; [exact cls_ptr|]. split; [exact cls_solid|].
  split; [apply (pk_orders _ _ _ _ _ cls_package)|]. split; [apply cls_corpus|]. split; [apply cls_live|]. split; [apply cls_live|vm_compute; reflexivity].
Qed.
