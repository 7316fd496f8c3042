(** C73: names do not matter.

    [naming] and [renFile] (RenameSpec.v): everything in trunnel source that has a
    name is given another one.  [bares fs] are the values of the fields [fs], in
    order, without the names in them. *)
From Coq Require Import ZArith String List Bool Lia ZifyBool ZifyNat.
From Verif Require Import Base Ast IntervalsModel InspectModel InspectSpec InspectProofs GoLang GenModel GenDecode GenCheck GenSim GenSimBody WireSpec WireProofs WireComplete WireFacts GenTerm
  PackageSpec PackageProofs PackageFacts RenameSpec RenameProofs GenExamples P_Parse.
Import ListNotations.
Open Scope string_scope.
Open Scope list_scope.
Open Scope Z_scope.

(** Two calls end alike: with the same values up to names and the same rest, with
    the same error, in the same panic, or never. *)
Record endsAlike (camel camel' : string -> string) (p p' : program) (s s' : struct) (fs0 fs0' : amap value) (data : bytes) (args args' : list value) : Prop := {
  ea_parses : forall fs1 rest, parses camel p s fs0 data args fs1 rest -> exists fs1', parses camel' p' s' fs0' data args' fs1' rest /\ bares fs1 = bares fs1';
  ea_parsed : forall fs1' rest, parses camel' p' s' fs0' data args' fs1' rest -> exists fs1, parses camel p s fs0 data args fs1 rest /\ bares fs1 = bares fs1';
  ea_fails : forall e, fails camel p s fs0 data args e <-> fails camel' p' s' fs0' data args' e;
  ea_panics : forall m, panics camel p s fs0 data args m <-> panics camel' p' s' fs0' data args' m;
  ea_never : neverEnds camel p s fs0 data args <-> neverEnds camel' p' s' fs0' data args' }.
Definition resultAlike (x x' : sres) : Prop :=
  match x, x' with SRet v e, SRet v' e' => bare v = bare v' /\ e = e' | _, _ => x = x' end.

Section Two.
Variable camel camel' : string -> string.
Variable nu : naming.
Variable os os' : nat -> orders.
Variable fs : list file.
Notation fs' := (map (renFile nu) fs).
Variable r r' : resolver.
Variable p p' : program.
Hypothesis PK : package camel os fs r p.
Hypothesis PK' : package camel' os' fs' r' p'.
Hypothesis Hscope : forall x, x <> "" -> toContext nu x <> "".

Lemma ren_constants : forall n v, Constant r n = Some v -> Constant r' (toConstant nu n) = Some v.
Proof.
  intros n v H. destruct PK as [V R _ _], PK' as [V' R' _ _]. destruct (addFiles_answers _ _ _ _ _ V R) as (_ & _ & A). destruct (addFiles_answers _ _ _ _ _ V' R') as (_ & _ & A').
  apply A in H as [H|(f & c & I & J & N & K)]; [discriminate|]. apply A'. right. exists (renFile nu f), (renConstant nu c). split; [now apply in_map|]. split; [now apply (in_map (renConstant nu))|].
  cbn. split; congruence.
Qed.
Lemma ren_contexts : forall x c, Context r x = Some c -> cname c = x /\ checkContext camel r c = true /\
  Context r' (toContext nu x) = Some (renContext nu c) /\ checkContext camel' r' (renContext nu c) = true.
Proof.
  intros x c H. destruct PK as [V R _ C], PK' as [V' R' _ C']. destruct (addFiles_answers _ _ _ _ _ V R) as (_ & A & _). destruct (addFiles_answers _ _ _ _ _ V' R') as (_ & A' & _).
  apply A in H as [H|(f & I & J & N)]; [discriminate|]. split; auto.
  unfold checkFiles in C, C'. rewrite !andb_true_iff in C, C'. destruct C as ((_ & C) & _), C' as ((_ & C') & _). rewrite forallb_forall in C, C'.
  split; [apply C, in_flat_map; eauto|]. assert (J' : In (renContext nu c) (fcontexts (renFile nu f))) by (now apply (in_map (renContext nu))).
  split; [|apply C', in_flat_map; exists (renFile nu f); split; auto; now apply in_map].
  apply A'. right. exists (renFile nu f). split; [now apply in_map|]. split; auto. cbn. congruence.
Qed.
Lemma ren_defines : forall s, defines fs s -> defines fs' (renStruct nu s).
Proof.
  intros s (X & f & I & J). split; [now rewrite ren_extern|]. exists (renFile nu f). split; [now apply in_map|]. now apply (in_map (renStruct nu)).
Qed.
Lemma ren_found : forall nm s, Struct r nm = Some s -> Extern s = false -> checkStruct camel r s = true /\ sname s = nm /\
  Struct r' (toStruct nu nm) = Some (renStruct nu s) /\ checkStruct camel' r' (renStruct nu s) = true.
Proof.
  intros nm s HS HE. destruct (str_defines camel os fs r p PK nm s HS HE) as [D N]. split; [eapply str_check; eauto|]. split; auto.
  pose proof (ren_defines s D) as D'. assert (S' : Struct r' (toStruct nu nm) = Some (renStruct nu s)).
  { apply (pk_struct camel' os' fs' r' p' PK' _ _ (proj1 D')). split; [now apply (defines_in fs')|]. cbn. congruence. }
  split; auto. eapply (str_check camel' os' fs' r' p' PK'); eauto. apply D'.
Qed.

Lemma ctx_keys : forall (cm : string -> string) c (cf : amap value), Forall2 (fun f kv => fst kv = cm (fst f) /\ forall sz cst, snd f = TInt sz cst -> uintN sz (snd kv)) (cmembers c) cf ->
  map fst cf = map cm (map fst (cmembers c)).
Proof. intros cm c cf F. induction F as [|f kv l l' [E _] F IH]; cbn; auto. now rewrite E, IH. Qed.
Lemma checked_ctx : forall (cm : string -> string) q c, checkContext cm q c = true -> NoDup (map cm (map fst (cmembers c))).
Proof. intros cm q c C. unfold checkContext in C. rewrite !andb_true_iff in C. destruct C as (_ & C). apply nodupb_NoDup in C. now rewrite map_map. Qed.
Lemma ren_ctx_values : forall s args args', checkStruct camel r s = true -> checkStruct camel' r' (renStruct nu s) = true ->
  ctxValues camel r s args -> ctxValues camel' r' (renStruct nu s) args' -> map bare args = map bare args' ->
  cenvR camel camel' nu r (scontexts s) (contextsOf s args) (contextsOf (renStruct nu s) args').
Proof.
  intros s args args' C C' A A' B. destruct (both_names camel camel' nu r r' s C C') as (_ & _ & N & N'). unfold ctxValues, contextsOf in *. cbn [renStruct scontexts] in *.
  revert args' A' B. induction A as [|x v l args (c & X & V) A IH]; intros args' A' B.
  - intros x [].
  - cbn [map] in *. inversion A' as [|x' v' l' args1 (c' & X' & V') A1]; subst. cbn [map] in B. injection B as Bv B. inversion N as [|? ? Nx N1]; subst. inversion N' as [|? ? Nx' N1']; subst.
    destruct (ren_contexts x c X) as (CN & CC & X2 & CC'). rewrite X2 in X'. injection X' as <-. intros y [<-|I].
    + exists c, v, v'. cbn [combine alookup]. rewrite !String.eqb_refl. split; auto. split; auto. split; auto. split; auto.
      destruct V as (cf & -> & F), V' as (cf' & -> & F'). apply struct_bare in Bv as (ty' & cf2 & E2 & Bv). injection E2 as <- <-.
      exists (camel (cname c)), (camel' (cname (renContext nu c))), cf, cf'. split; auto. split; auto.
      pose proof (ctx_keys _ _ _ F) as K. pose proof (ctx_keys _ _ _ F') as K'. pose proof (checked_ctx _ _ _ CC) as ND. pose proof (checked_ctx _ _ _ CC') as ND'.
      assert (Q : map camel' (map fst (cmembers (renContext nu c))) = map (fun n => camel' (toCtxField nu (cname c) n)) (map fst (cmembers c))) by (cbn [renContext cmembers]; now rewrite !map_map).
      rewrite Q in K', ND'. apply (rows_lookup camel (fun n => camel' (toCtxField nu (cname c) n)) _ cf cf'); auto. now apply bares_rows.
    + destruct (IH N1 N1' args1 A1 B y I) as (c1 & w & w' & Hc1 & CN1 & L1 & L1' & A2). exists c1, w, w'. cbn [combine alookup].
      destruct (String.eqb y x) eqn:Eq; [apply String.eqb_eq in Eq; exfalso; apply Nx; rewrite <- Eq; exact I|].
      destruct (String.eqb (toContext nu y) (toContext nu x)) eqn:Eq'; [apply String.eqb_eq in Eq'; destruct Nx'; rewrite <- Eq'; now apply in_map|]. auto 8.
Qed.
Lemma struct_keys : forall cm q s fs0, goStruct cm q s fs0 -> map fst fs0 = map cm (flat_map fieldNames (members_of s)).
Proof.
  intros cm q s fs0 G. unfold goStruct in G. rewrite <- (allNames (members_of s)). induction G as [|f kv l l' [E _] G IH]; cbn; auto. now rewrite E, IH.
Qed.
Lemma ren_rows : forall s fs0 fs0', goStruct camel r s fs0 -> goStruct camel' r' (renStruct nu s) fs0' -> bares fs0 = bares fs0' ->
  rows camel (fun n => camel' (toField nu (sname s) n)) (flat_map fieldNames (members_of s)) fs0 fs0'.
Proof.
  intros s fs0 fs0' G G' B. apply bares_rows; auto; [eapply struct_keys; eauto|]. rewrite (struct_keys _ _ _ _ G'), ren_members_of, names_map, map_map. reflexivity.
Qed.

Variable s : struct.
Section Call.
Variable fs0 fs0' : amap value.
Variable data : bytes.
Variable args args' : list value.
Hypothesis VC : validCall camel fs r s fs0 data args.
Hypothesis VC' : validCall camel' fs' r' (renStruct nu s) fs0' data args'.
Hypothesis BF : bares fs0 = bares fs0'.
Hypothesis BA : map bare args = map bare args'.
Notation R := (rows camel (fun n => camel' (toField nu (sname s) n)) (flat_map fieldNames (members_of s))).
Lemma ren_dec : forall n, alike R (decStruct camel r n s fs0 (contextsOf s args) data) (decStruct camel' r' n (renStruct nu s) fs0' (contextsOf (renStruct nu s) args') data).
Proof.
  intros n. pose proof (vc_check camel os fs r p PK _ _ _ _ VC) as C. pose proof (vc_check camel' os' fs' r' p' PK' _ _ _ _ VC') as C'.
  apply (ren_struct camel camel' nu r r' ren_constants Hscope ren_found); auto.
  - apply ren_ctx_values; auto; [apply VC|apply VC'].
  - apply ren_rows; auto; [apply VC|apply VC'].
Qed.
Lemma ren_ends : endsAlike camel camel' p p' s (renStruct nu s) fs0 fs0' data args args'.
Proof.
  constructor; intros.
  - apply (parses_dec camel os fs r p PK _ _ _ _ VC) in H as [n H]. pose proof (ren_dec n) as A. rewrite H in A.
    destruct (decStruct camel' r' n (renStruct nu s) fs0' (contextsOf (renStruct nu s) args') data) as [[fs1' c']| | |] eqn:E; cbn in A; try contradiction. destruct A as [A <-].
    exists fs1'. split; [apply (parses_dec camel' os' fs' r' p' PK' _ _ _ _ VC'); eauto|]. eapply rows_bares; eauto.
  - apply (parses_dec camel' os' fs' r' p' PK' _ _ _ _ VC') in H as [n H]. pose proof (ren_dec n) as A. rewrite H in A.
    destruct (decStruct camel r n s fs0 (contextsOf s args) data) as [[fs1 c']| | |] eqn:E; cbn in A; try contradiction. destruct A as [A ->].
    exists fs1. split; [apply (parses_dec camel os fs r p PK _ _ _ _ VC); eauto|]. eapply rows_bares; eauto.
  - rewrite (fails_dec camel os fs r p PK _ _ _ _ VC), (fails_dec camel' os' fs' r' p' PK' _ _ _ _ VC'). split; intros [n H]; exists n; pose proof (ren_dec n) as A; rewrite H in A.
    + destruct (decStruct camel' r' n _ _ _ _) as [[]| | |]; cbn in A; try contradiction. congruence.
    + destruct (decStruct camel r n _ _ _ _) as [[]| | |]; cbn in A; try contradiction. congruence.
  - rewrite (panics_dec camel os fs r p PK _ _ _ _ VC), (panics_dec camel' os' fs' r' p' PK' _ _ _ _ VC'). split; intros [n H]; exists n; pose proof (ren_dec n) as A; rewrite H in A.
    + destruct (decStruct camel' r' n _ _ _ _) as [[]| | |]; cbn in A; try contradiction. congruence.
    + destruct (decStruct camel r n _ _ _ _) as [[]| | |]; cbn in A; try contradiction. congruence.
  - unfold neverEnds. split; intros H n; specialize (H n).
    + apply (run_fuel camel os fs r p PK _ _ _ _ VC) in H. apply (run_fuel camel' os' fs' r' p' PK' _ _ _ _ VC'). pose proof (ren_dec n) as A. rewrite H in A.
      destruct (decStruct camel' r' n _ _ _ _) as [[]| | |]; cbn in A; try contradiction. reflexivity.
    + apply (run_fuel camel' os' fs' r' p' PK' _ _ _ _ VC') in H. apply (run_fuel camel os fs r p PK _ _ _ _ VC). pose proof (ren_dec n) as A. rewrite H in A.
      destruct (decStruct camel r n _ _ _ _) as [[]| | |]; cbn in A; try contradiction. reflexivity.
Qed.
End Call.

(** The corresponding call. *)
Definition retyped (t : type) (v : value) : value :=
  match t, v with TStruct n, VStruct _ f => VStruct (camel' (toStruct nu n)) f | _, _ => v end.
Lemma retyped_go : forall ctxs k phi t v, checkType r ctxs k t = true -> goValue camel r t v -> goValue camel' r' (renType nu phi t) (retyped t v) /\ bare (retyped t v) = bare v.
Proof.
  intros ctxs k phi t v C G. destruct t as [sz o| | | |n|b i|b l]; cbn [goValue renType retyped] in *; auto.
  - destruct G as [->|(f & ->)]; split; auto. right. eauto.
  - cbn [checkType] in C. apply andb_true_iff in C as [_ C]. destruct G as (vs & -> & E). split; auto. exists vs. split; auto. now apply (ren_int nu r r' ren_constants).
Qed.
Lemma ren_receiver : forall fs0, checkStruct camel r s = true -> goStruct camel r s fs0 -> exists fs0', goStruct camel' r' (renStruct nu s) fs0' /\ bares fs0 = bares fs0'.
Proof.
  intros fs0 C G. unfold goStruct in *. rewrite ren_members_of, allFields_map. destruct (checked_parts _ _ _ C) as (CM & _).
  assert (T : forall f, In f (flat_map allFields (members_of s)) -> exists k', checkType r (scontexts s) k' (snd f) = true) by (intros; eapply field_checked; eauto).
  revert T. induction G as [|[n t] [k v] l l' [E V] G IH]; intros T.
  - exists []. split; [constructor|reflexivity].
  - destruct IH as (fs0' & G' & B); [intros f I; apply T; now right|]. destruct (T _ (or_introl eq_refl)) as [k' Ct]. cbn [fst snd] in *.
    destruct (retyped_go _ _ (toField nu (sname s)) _ _ Ct V) as [V' Bv]. exists ((camel' (toField nu (sname s) n), retyped t v) :: fs0'). split.
    + cbn [map]. constructor; auto.
    + unfold bares in *. cbn. now rewrite Bv, B.
Qed.
Lemma ren_args : forall args, ctxValues camel r s args -> exists args', ctxValues camel' r' (renStruct nu s) args' /\ map bare args = map bare args'.
Proof.
  intros args A. unfold ctxValues in *. cbn [renStruct scontexts]. induction A as [|x v l args (c & X & V) A IH].
  - exists []. split; [constructor|reflexivity].
  - destruct IH as (args' & A' & B). destruct (ren_contexts x c X) as (CN & CC & X2 & _). destruct V as (cf & -> & F).
    assert (W : exists cf', Forall2 (fun f kv => fst kv = camel' (fst f) /\ forall sz cst, snd f = TInt sz cst -> uintN sz (snd kv)) (cmembers (renContext nu c)) cf' /\ bares cf = bares cf').
    { cbn [renContext cmembers]. clear - F. induction F as [|[n t] [k v] l l' [E V] F IH]; cbn [map].
      - exists []. split; [constructor|reflexivity].
      - destruct IH as (cf' & G & B). exists ((camel' (toCtxField nu (cname c) n), v) :: cf'). split; [|unfold bares in *; cbn; now rewrite B].
        constructor; auto. cbn [fst snd] in *. split; auto. intros sz cst H. destruct t; try discriminate. cbn in H. injection H as -> _. eapply V; eauto. }
    destruct W as (cf' & F' & Bc). exists (VStruct (camel' (cname (renContext nu c))) cf' :: args'). split.
    + cbn [map]. constructor; auto. exists (renContext nu c). split; auto. exists cf'. auto.
    + cbn [map]. f_equal; auto. now apply bare_struct.
Qed.
Lemma ren_valid : forall fs0 data args, validCall camel fs r s fs0 data args ->
  exists fs0' args', validCall camel' fs' r' (renStruct nu s) fs0' data args' /\ bares fs0 = bares fs0' /\ map bare args = map bare args'.
Proof.
  intros fs0 data args VC. pose proof (vc_check camel os fs r p PK _ _ _ _ VC) as C. destruct (ren_receiver fs0 C (vc_recv _ _ _ _ _ _ _ VC)) as (fs0' & G & B).
  destruct (ren_args args (vc_args _ _ _ _ _ _ _ VC)) as (args' & A & BA). exists fs0', args'. split; auto. constructor; auto; [apply ren_defines; apply VC|apply VC].
Qed.
Lemma ren_new : forall data args args', defines fs s -> ctxValues camel r s args -> ctxValues camel' r' (renStruct nu s) args' -> map bare args = map bare args' -> goBytes data ->
  forall n, resultAlike (runNew camel p n s data args) (runNew camel' p' n (renStruct nu s) data args').
Proof.
  intros data args args' D CV CV' BA B n. pose proof (ren_defines s D) as D'.
  assert (VC : validCall camel fs r s (blank camel (Constant r) s) data args). { constructor; auto. eapply blank_goStruct; eauto. now apply defines_in. }
  assert (VC' : validCall camel' fs' r' (renStruct nu s) (blank camel' (Constant r') (renStruct nu s)) data args').
  { constructor; auto. eapply blank_goStruct; eauto. now apply (defines_in fs'). }
  pose proof (new_run camel os fs r p PK n s data args ltac:(now apply defines_in) CV B) as Nw.
  pose proof (new_run camel' os' fs' r' p' PK' n (renStruct nu s) data args' ltac:(now apply (defines_in fs')) CV' B) as Nw'.
  change (cenvOf s args) with (contextsOf s args) in Nw. change (cenvOf (renStruct nu s) args') with (contextsOf (renStruct nu s) args') in Nw'.
  pose proof (vc_check camel os fs r p PK _ _ _ _ VC) as C.
  pose proof (ren_dec _ _ _ _ _ VC VC' (rows_bares _ _ _ _ _ (ren_blank_rows camel camel' nu r r' ren_constants s C)) BA n) as A.
  destruct (decStruct camel r n s _ _ data) as [[fs1 c1]| | |], (decStruct camel' r' n _ _ _ data) as [[fs1' c1']| | |]; cbn in A; try contradiction; cbn [newEnds] in *; rewrite Nw, Nw'; cbn; try congruence; auto.
  destruct A as [A _]. split; auto. apply (bare_struct (camel (sname s)) (camel' (toStruct nu (sname s)))). eapply rows_bares; eauto.
  subst. auto.
Qed.
End Two.

(** C73. *)
Theorem C73_names : forall camel camel' nu os os' fs r r' p p', package camel os fs r p -> package camel' os' (map (renFile nu) fs) r' p' ->
  (forall x, x <> "" -> toContext nu x <> "") ->
  forall s fs0 fs0' data args args', validCall camel fs r s fs0 data args -> validCall camel' (map (renFile nu) fs) r' (renStruct nu s) fs0' data args' ->
  bares fs0 = bares fs0' -> map bare args = map bare args' ->
  endsAlike camel camel' p p' s (renStruct nu s) fs0 fs0' data args args'.
Proof. intros camel camel' nu os os' fs r r' p p' PK PK' SC s fs0 fs0' data args args' VC VC' B A. exact (ren_ends camel camel' nu os os' fs r r' p p' PK PK' SC s fs0 fs0' data args args' VC VC' B A). Qed.
Print Assumptions C73_names.
(** Every call has such a counterpart. *)
Theorem C73_counterpart : forall camel camel' nu os os' fs r r' p p', package camel os fs r p -> package camel' os' (map (renFile nu) fs) r' p' ->
  forall s fs0 data args, validCall camel fs r s fs0 data args ->
  exists fs0' args', validCall camel' (map (renFile nu) fs) r' (renStruct nu s) fs0' data args' /\ bares fs0 = bares fs0' /\ map bare args = map bare args'.
Proof. intros camel camel' nu os os' fs r r' p p' PK PK' s fs0 data args VC. exact (ren_valid camel camel' nu os os' fs r r' p p' PK PK' s fs0 data args VC). Qed.
Print Assumptions C73_counterpart.
Theorem C73_new : forall camel camel' nu os os' fs r r' p p', package camel os fs r p -> package camel' os' (map (renFile nu) fs) r' p' ->
  (forall x, x <> "" -> toContext nu x <> "") ->
  forall s data args args', defines fs s -> ctxValues camel r s args -> ctxValues camel' r' (renStruct nu s) args' -> map bare args = map bare args' -> goBytes data ->
  forall n, resultAlike (runNew camel p n s data args) (runNew camel' p' n (renStruct nu s) data args').
Proof. intros camel camel' nu os os' fs r r' p p' PK PK' SC s data args args' D CV CV' BA B n. exact (ren_new camel camel' nu os os' fs r r' p p' PK PK' SC s data args args' D CV CV' BA B n). Qed.
Print Assumptions C73_new.

(** The example of GenExamples.v with every name changed; [cur], [data] and [err]
    are names that the generated code uses for itself, as fields they do no harm. *)
Definition others : naming :=
  mkNaming (fun n => String.append "the_" n) (fun n => String.append "cx_" n) (fun n => String.append n "_2") (fun n => String.append n n)
    (fun s n => if String.eqb n "tag" then "data" else if String.eqb n "len" then "cur" else if String.eqb n "x" then "err" else String.append n s) (fun c n => String.append c n).
Definition demo4 : list file := map (renFile others) demo.
Lemma demo4_package : package camelX osX demo4 (theRes demo4) (theProg demo4).
Proof. apply package_of. vm_compute. reflexivity. Qed.
Lemma demo4_call : validCall camelX demo4 (theRes demo4) (renStruct others msg) (blank camelX (Constant (theRes demo4)) (renStruct others msg)) (msgBytes ++ msgRest)
  [VStruct (camelX "cx_opts") [(camelX "optsextra", VInt 2)]].
Proof.
  assert (D : defines demo4 (renStruct others msg)) by (apply (ren_defines others demo); exact demo_msg).
  constructor; auto.
  - constructor; [|constructor]. eexists. split; [vm_compute; reflexivity|]. eexists. split; [reflexivity|]. constructor; [|constructor]. split; [reflexivity|].
    intros sz cst H. cbn in H. injection H as <- _. exists 2. split; [reflexivity|lia].
  - eapply blank_goStruct; [exact demo4_package|]. now apply defines_in.
  - exact (vc_data _ _ _ _ _ _ _ (msg_call _ 2 msg_bytes ltac:(lia))).
Qed.
Example C73_case : exists fs1, parses camelX (theProg demo4) (renStruct others msg) (blank camelX (Constant (theRes demo4)) (renStruct others msg)) (msgBytes ++ msgRest)
    [VStruct (camelX "cx_opts") [(camelX "optsextra", VInt 2)]] fs1 msgRest /\ bares msgFields = bares fs1 /\
  sname (renStruct others msg) = "the_msg" /\ hd "" (flat_map fieldNames (members_of (renStruct others msg))) = "data".
Proof.
  assert (E : endsAlike camelX camelX demoP (theProg demo4) msg (renStruct others msg) (blank camelX (Constant demoR) msg) (blank camelX (Constant (theRes demo4)) (renStruct others msg))
    (msgBytes ++ msgRest) [optsV 2] [VStruct (camelX "cx_opts") [(camelX "optsextra", VInt 2)]]).
  { apply (C73_names camelX camelX others osX osX demo demoR (theRes demo4) demoP (theProg demo4) demo_package demo4_package).
    - intros x _. discriminate.
    - exact (msg_call _ 2 msg_bytes ltac:(lia)).
    - exact demo4_call.
    - vm_compute. reflexivity.
    - vm_compute. reflexivity. }
  destruct (ea_parses _ _ _ _ _ _ _ _ _ _ _ E _ _ msg_parses) as (fs1 & P & B). exists fs1. split; [exact P|]. split; [exact B|]. auto.
Qed.
