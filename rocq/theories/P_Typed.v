(** Property C85: a value stays a Go value of its type, and can be used again, even
    after calls that fail.

    [deepStruct camel r s fs]: the fields [fs] hold what the types of the fields of
    [s] allow, all the way down; in particular what a Go program can have put there
    (TypedSpec.v).  [calledOn p s fs0 calls fs1]: a value holding [fs0] holds [fs1]
    after the calls of Parse, each of which returned, with an error or without. *)
From Coq Require Import ZArith String List Bool Lia.
From Verif Require Import Base Ast IntervalsModel InspectModel InspectSpec InspectProofs GoLang GenModel GenCheck
  WireSpec WireProofs WireComplete GenTerm WireFacts ReachSpec PackageSpec PackageProofs PackageFacts PackageMore GenExamples GenWitness TypedSpec TypedProg P_Parse.
Import ListNotations.
Open Scope string_scope.
Open Scope list_scope.
Open Scope Z_scope.

(** However a call ends, the receiver holds a value of its type; and what is returned
    is a slice of bytes or nil, and an error or nil. *)
Theorem C85_stays_typed : forall camel os fs r p, package camel os fs r p -> forall s fs0 data args,
  defines fs s -> deepStruct camel r s fs0 -> ctxValues camel r s args -> goBytes data ->
  forall n, exists fs1 res, runParse camel p n s fs0 data args = (VStruct (camel (sname s)) fs1, res) /\ deepStruct camel r s fs1 /\
    forall v e, res = SRet v e -> (v = VNil \/ exists b, v = VBytes b /\ goBytes b) /\ (e = VNil \/ exists m, e = VErr m).
Proof. intros camel os fs r p PK s fs0 data args D DS CV GB n. exact (parse_typed camel os fs r p PK s fs0 data args n D DS CV GB). Qed.
Print Assumptions C85_stays_typed.

(** What ParseX returns is a value of the type, or nil; and an error or nil. *)
Theorem C85_new_typed : forall camel os fs r p, package camel os fs r p -> forall s data args,
  defines fs s -> ctxValues camel r s args -> goBytes data ->
  forall n v e, runNew camel p n s data args = SRet v e ->
  (v = VNil \/ exists fs1, v = VStruct (camel (sname s)) fs1 /\ deepStruct camel r s fs1) /\ (e = VNil \/ exists m, e = VErr m).
Proof. intros camel os fs r p PK s data args D CV GB n v e H. exact (new_typed camel os fs r p PK s data args n v e D CV GB H). Qed.
Print Assumptions C85_new_typed.

(** A new value is one; after any calls, whatever they returned, any call that could
    be made on a new value can be made. *)
Theorem C85_usable_again : forall camel os fs r p, package camel os fs r p -> forall s, defines fs s ->
  deepStruct camel r s (blank camel (Constant r) s) /\
  forall fs0 calls fs1, deepStruct camel r s fs0 -> calledOn camel p s fs0 calls fs1 ->
    Forall (fun c => goBytes (fst c) /\ ctxValues camel r s (snd c)) calls ->
    deepStruct camel r s fs1 /\
    forall data args, validCall camel fs r s (blank camel (Constant r) s) data args -> validCall camel fs r s fs1 data args.
Proof.
  intros camel os fs r p PK s D. split; [exact (blank_deep camel os fs r p PK s D)|]. intros fs0 calls fs1 DS CO F.
  pose proof (called_typed camel os fs r p PK s fs0 calls fs1 D DS CO F) as DS1. split; auto. intros data args [V1 V2 _ V4]. constructor; auto. now apply deep_go.
Qed.
Print Assumptions C85_usable_again.

(** ... and it ends as on a new value: with the same error, or with the same slice and
    the same values in all fields that are parsed. *)
Theorem C85_as_if_new : forall camel os fs r p, package camel os fs r p -> forall s, defines fs s ->
  forall fs0 calls fs1, deepStruct camel r s fs0 -> calledOn camel p s fs0 calls fs1 ->
  Forall (fun c => goBytes (fst c) /\ ctxValues camel r s (snd c)) calls ->
  forall data args, validCall camel fs r s (blank camel (Constant r) s) data args ->
  (forall e, fails camel p s fs1 data args e <-> fails camel p s (blank camel (Constant r) s) data args e) /\
  (ptrFiles fs = true -> forall fsn rest, parses camel p s (blank camel (Constant r) s) data args fsn rest ->
    exists fs2, parses camel p s fs1 data args fs2 rest /\
      forall nm t, In (nm, t) (flat_map allFields (members_of s)) -> present camel r (contextsOf s args) fsn (members_of s) (MField nm t) ->
        alookup (camel nm) fs2 = alookup (camel nm) fsn).
Proof.
  intros camel os fs r p PK s D fs0 calls fs1 DS CO F data args VB. destruct (C85_usable_again camel os fs r p PK s D) as [_ U].
  destruct (U fs0 calls fs1 DS CO F) as [_ V]. specialize (V data args VB). split.
  - intros e. split; apply (C27_receiver_error camel os fs r p PK s data args); auto.
  - intros PT fsn rest H. destruct (C27_receiver_fields camel os fs r p PK s data args _ _ VB V PT fsn rest H) as (fs2 & H2 & E). exists fs2. split; auto.
    intros nm t I P. destruct (E nm t I) as [(_ & _ & E1)|(N & _)]; [congruence|contradiction].
Qed.
Print Assumptions C85_as_if_new.

(** A message that is cut short leaves a partly filled value: one point and two nils
    in [Pts].  The next message is parsed as on a new value.  Values that are not
    of the type: an array that is too short, a number that is too large. *)
Definition cutBytes : bytes := [1; 4; 5; 1; 6; 2; 3; 7; 3; 0].
Definition cutFields : amap value :=
  [("Tag", VInt 1); ("Len", VInt 4); ("Pos", VInt 2); ("P", mkPoint 5 1); ("Q", mkPoint 6 2); ("Name", VStr []);
   ("Words", VNil); ("Count", VInt 3); ("Pts", VList [mkPoint 7 3; mkPoint 0 0; VNil]); ("Pair", VList [VInt 0; VInt 0]); ("More", VNil)].
Example C85_case :
  calledOn camelX demoP msg (blank camelX (Constant demoR) msg) [(cutBytes, [optsV 2])] cutFields /\
  snd (runParse camelX demoP 9 msg (blank camelX (Constant demoR) msg) cutBytes [optsV 2]) = SRet VNil (VErr "data too short") /\
  deepStruct camelX demoR msg cutFields /\
  calledOn camelX demoP msg (blank camelX (Constant demoR) msg) [(cutBytes, [optsV 2]); (msgBytes ++ msgRest, [optsV 2])] msgFields /\
  ~ deepStruct camelX demoR msg (assign "Pair" (VList [VInt 0]) cutFields) /\
  ~ deepStruct camelX demoR msg (assign "Pts" (VList [mkPoint 7 300]) cutFields).
Proof.
  assert (C1 : calledOn camelX demoP msg (blank camelX (Constant demoR) msg) [(cutBytes, [optsV 2])] cutFields).
  { eapply co_call with (n := 9%nat); [vm_compute; reflexivity|]. constructor. }
  split; [exact C1|]. split; [vm_compute; reflexivity|]. split; [|split; [|split]].
  - assert (GB : goBytes cutBytes) by (apply bytes_ok; vm_compute; reflexivity).
    destruct (C85_usable_again camelX osX demo demoR demoP demo_package msg demo_msg) as [B U].
    apply (U _ _ _ B C1). constructor; [|constructor]. split; [exact GB|]. destruct (msg_call cutBytes 2 GB ltac:(lia)). assumption.
  - eapply co_call with (n := 9%nat); [vm_compute; reflexivity|]. eapply co_call with (n := 9%nat); [vm_compute; reflexivity|]. constructor.
  - intros H. do 9 (inversion H as [|? ? ? ? _ H']; subst; clear H; rename H' into H). inversion H as [|? ? ? ? [_ D] _]; subst. cbn in D. inversion D as [| | | | | |? ? ? E _| |]; subst. discriminate E.
  - intros H. do 8 (inversion H as [|? ? ? ? _ H']; subst; clear H; rename H' into H). inversion H as [|? ? ? ? [_ D] _]; subst. cbn in D. inversion D as [| | | | | | | |? ? ? F]; subst.
    inversion F as [|? ? DP _]; subst. inversion DP as [| | | | |? s ? HS _ FP| | |]; subst. vm_compute in HS. injection HS as <-. cbn in FP.
    inversion FP as [|? ? ? ? _ FP']; subst. inversion FP' as [|? ? ? ? [_ DY] _]; subst. cbn in DY. inversion DY; subst. lia.
Qed.
