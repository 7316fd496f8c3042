(** The generated package compiles. *)
From Coq Require Import ZArith String Ascii List Bool Lia ZifyBool ZifyNat.
From Verif Require Import Base Ast IntervalsModel InspectModel InspectSpec InspectProofs GoLang GenModel GenCheck GenSim GenSimBody GenSimProg
  GenSafe WireSpec WireFacts WireComplete PackageSpec PackageProofs GoTypes CompileCheck CompileProofs.
Import ListNotations.
Open Scope string_scope.
Open Scope list_scope.
Open Scope Z_scope.

Lemma localsT_names : forall t y, In y (localsT t) -> In y ["err"; "i"; "idx"; "tmp"; "restore"].
Proof.
  induction t as [| | | | |b IH i|b IH [[f|i]|]]; intros y H; cbn [localsT] in H; try contradiction.
  - destruct H as [<-|[]]. cbn. tauto.
  - destruct H as [<-|[]]. cbn. tauto.
  - destruct H as [<-|H]; [cbn; tauto|auto].
  - destruct H as [<-|H]; [cbn; tauto|auto].
  - destruct H as [<-|[<-|H]]; [cbn; tauto|cbn; tauto|auto].
  - destruct H as [<-|H]; [cbn; tauto|auto].
Qed.
Lemma localsM_names : forall m y, In y (localsM m) -> In y ["err"; "i"; "idx"; "tmp"; "restore"].
Proof.
  induction m as [nm t|u tag len cs IH| | |] using member_ind'; intros y H; cbn [localsM] in H; try contradiction.
  - eapply localsT_names; eauto.
  - apply in_app_or in H as [H|H].
    + destruct len; [destruct H as [<-|[]]; cbn; tauto|destruct H].
    + apply in_flat_map in H as ([l ms] & I & H). apply in_flat_map in H as (m & J & H). rewrite Forall_forall in IH. specialize (IH _ I).
      cbn [ucase_members] in IH. rewrite Forall_forall in IH. eauto.
Qed.

(** A receiver's name is one character long. *)
Lemma receiver_used : forall n rv, receiverName n = Ok rv -> ~ In rv usedNames.
Proof.
  intros [|c n] rv H; cbn in H; [discriminate|]. injection H as <-. cbn [usedNames In]. intros I.
  repeat (destruct I as [I|I]; [discriminate I|]). exact I.
Qed.

Lemma lookup_params : forall camel ctxs x, alookup x (map (fun y => (y, Tstruct (camel y))) ctxs) = if memb x ctxs then Some (Tstruct (camel x)) else None.
Proof.
  intros camel. induction ctxs as [|c l IH]; intros x; auto. cbn [map alookup]. unfold memb. cbn [existsb]. fold (memb x l).
  destruct (String.eqb_spec x c) as [->|]; auto. apply IH.
Qed.

Lemma mapM_in_r : forall {A B} (f : A -> outcome B) l bs b, mapM f l = Ok bs -> In b bs -> exists a, In a l /\ f a = Ok b.
Proof.
  induction l as [|x l IH]; intros bs b H I; cbn [mapM] in H.
  - injection H as <-. destruct I.
  - apply bind_ok in H as (c & Hc & H). apply bind_ok in H as (cs & Hcs & H). injection H as <-. destruct I as [->|I].
    + exists x. cbn. auto.
    + destruct (IH cs b Hcs I) as (a & Ia & Ha). exists a. cbn. auto.
Qed.

Section Prog.
Variable camel : string -> string.
Variable os : nat -> orders.
Variable fs : list file.
Variable r : resolver.
Variable p : program.
Hypothesis PK : package camel os fs r p.
Hypothesis CF : namesFiles camel fs = true.

Lemma cf_parts : NoDup (declaredNames camel fs) /\ forallb goName (declaredNames camel fs) = true /\
  (forall x, In x (declaredNames camel fs) -> ~ In x usedNames) /\ (forall x, In x (structTypes camel fs) -> ~ In x localNames) /\
  (forall c f, In c (flat_map fcontexts fs) -> In f (cmembers c) -> goName (camel (fst f)) = true) /\
  (forall s, In s (definedStructs fs) -> namesStruct camel fs s = true).
Proof.
  unfold namesFiles in CF. repeat rewrite andb_true_iff in CF. destruct CF as (((((A & B) & C) & D) & E) & F).
  apply nodupb_NoDup in A. rewrite disjointb_spec in C, D. rewrite forallb_forall in E, F. split; [|split; [|split; [|split; [|split]]]]; auto.
  intros c f I J. specialize (E c I). rewrite forallb_forall in E. exact (E f J).
Qed.

Lemma types_eq : map fst (ptypes p) = typeNames camel fs.
Proof.
  pose proof (pk_gen _ _ _ _ _ PK) as G. unfold genProgram in G. apply bind_ok in G as (cs & Hc & H). apply bind_ok in H as (ss & Hs & H). injection H as <-.
  cbn [ptypes]. rewrite map_app, map_map. unfold typeNames, structTypes.
  rewrite (mapM_map _ fst (fun c => camel (cname c)) _ _ Hc).
  - f_equal. apply (mapM_map _ _ _ _ _ Hs). intros s x E. unfold structureDecl in E.
    apply bind_ok in E as (? & _ & E). apply bind_ok in E as (? & _ & E). apply bind_ok in E as (? & _ & E). now injection E as <-.
  - intros c x E. unfold contextDecl in E. apply bind_ok in E as (? & _ & E). now injection E as <-.
Qed.
Lemma methods_eq : map fst (pmethods p) = structTypes camel fs.
Proof.
  pose proof (pk_gen _ _ _ _ _ PK) as G. unfold genProgram in G. apply bind_ok in G as (cs & Hc & H). apply bind_ok in H as (ss & Hs & H). injection H as <-.
  cbn [pmethods]. rewrite map_map. apply (mapM_map _ _ _ _ _ Hs). intros s x E. unfold structureDecl in E.
  apply bind_ok in E as (? & _ & E). apply bind_ok in E as (? & _ & E). apply bind_ok in E as (? & _ & E). now injection E as <-.
Qed.
Lemma ctors_eq : map fst (pctors p) = structTypes camel fs.
Proof.
  pose proof (pk_gen _ _ _ _ _ PK) as G. unfold genProgram in G. apply bind_ok in G as (cs & Hc & H). apply bind_ok in H as (ss & Hs & H). injection H as <-.
  cbn [pctors]. rewrite map_map. apply (mapM_map _ _ _ _ _ Hs). intros s x E. unfold structureDecl in E.
  apply bind_ok in E as (? & _ & E). apply bind_ok in E as (? & _ & E). apply bind_ok in E as (? & _ & E). now injection E as <-.
Qed.
Lemma names_eq : packageNames p = declaredNames camel fs.
Proof.
  unfold packageNames, declaredNames. rewrite types_eq. f_equal.
  replace (map (fun f => ("Parse" ++ fst f)%string) (pctors p)) with (map (fun n => ("Parse" ++ n)%string) (map fst (pctors p))) by (now rewrite map_map).
  rewrite ctors_eq. unfold structTypes. now rewrite map_map.
Qed.

Lemma nodup_types : NoDup (map fst (ptypes p)).
Proof. rewrite types_eq. destruct cf_parts as (A & _). unfold declaredNames in A. eapply NoDup_app_l; eauto. Qed.
Lemma nodup_structs : NoDup (structTypes camel fs).
Proof. pose proof nodup_types as H. rewrite types_eq in H. unfold typeNames in H. eapply NoDup_app_r; eauto. Qed.

Lemma pk_pkg : forall x, In x usedNames -> inb x (packageNames p) = false.
Proof.
  intros x I. rewrite names_eq. change inb with memb. apply memb_notin. intros J. destruct cf_parts as (_ & _ & C & _). exact (C x J I).
Qed.

Lemma gen_struct : forall s, In s (definedStructs fs) ->
  exists ds f ct, structDecl camel r s = Ok ds /\ parseFunc camel r s = Ok f /\ ctorFunc camel s = Ok ct /\
    alookup (camel (sname s)) (ptypes p) = Some ds /\ alookup (camel (sname s)) (pmethods p) = Some f /\
    alookup (camel (sname s)) (pctors p) = Some ct.
Proof. intros s I. apply (program_struct camel r fs p); auto; [exact (pk_gen _ _ _ _ _ PK)|apply PK]. Qed.

Lemma parse_params : forall s f, parseFunc camel r s = Ok f -> fparams f = scontexts s.
Proof. intros s f H. unfold parseFunc in H. apply bind_ok in H as (? & _ & H). apply bind_ok in H as (? & _ & H). now injection H as <-. Qed.

Lemma pk_meth : forall n s, Struct r n = Some s -> Extern s = false ->
  (exists f, alookup (camel n) (pmethods p) = Some f /\ fparams f = scontexts s) /\
  In (camel n) (structTypes camel fs) /\ exists fl, alookup (camel n) (ptypes p) = Some fl.
Proof.
  intros n s H E. destruct (pk_res _ _ _ _ _ PK n s H E) as (<- & I).
  destruct (gen_struct s I) as (ds & f & ct & _ & Hf & _ & L1 & L2 & _). split; [|split]; eauto.
  - exists f. split; auto. eapply parse_params; eauto.
  - unfold structTypes. apply in_map_iff. eauto.
Qed.

Lemma gen_context : forall c, In c (flat_map fcontexts fs) ->
  exists fl, alookup (camel (cname c)) (ptypes p) = Some fl /\ mapM (fun f => g <- tipe camel r (snd f) ;; Ok (camel (fst f), g)) (cmembers c) = Ok fl.
Proof.
  intros c I. pose proof (pk_gen _ _ _ _ _ PK) as G. pose proof nodup_types as ND.
  unfold genProgram in G. apply bind_ok in G as (cs & Hc & H). apply bind_ok in H as (ss & Hs & H). injection H as E.
  destruct (mapM_in _ _ _ _ Hc I) as (x & Hx & Ix). unfold contextDecl in Hx. apply bind_ok in Hx as (fl & Hf & Hx). injection Hx as <-.
  exists fl. split; auto. apply alookup_in; auto. rewrite <- E. cbn [ptypes]. apply in_or_app. auto.
Qed.
Lemma context_in : forall x c, Context r x = Some c -> In c (flat_map fcontexts fs) /\ cname c = x.
Proof.
  intros x c H. destruct PK as [V R G C]. destruct (addFiles_answers _ _ _ _ _ V R) as (_ & A2 & _).
  apply A2 in H as [H|(f & I & J & N)]; [discriminate|]. split; auto. apply in_flat_map. eauto.
Qed.
Lemma check_context : forall c, In c (flat_map fcontexts fs) -> checkContext camel r c = true.
Proof.
  intros c I. destruct PK as [V R G C]. unfold checkFiles in C. apply andb_true_iff in C as [C _]. apply andb_true_iff in C as [_ C].
  rewrite forallb_forall in C. auto.
Qed.

Lemma pk_ctx : forall ctxs x n sz, ctxField r ctxs x n = Some sz ->
  exists fl, alookup (camel x) (ptypes p) = Some fl /\ alookup (camel n) fl = Some (GUint sz).
Proof.
  intros ctxs x n sz H. unfold ctxField in H. destruct (memb x ctxs); [|discriminate]. destruct (Context r x) as [c|] eqn:E; [|discriminate].
  destruct (findIntField n (cmembers c)) as [[sz' cst]| | |] eqn:F; try discriminate. injection H as ->.
  destruct (context_in _ _ E) as [I <-]. destruct (gen_context c I) as (fl & L & M). exists fl. split; auto.
  apply findIntField_in in F. destruct (mapM_in _ _ _ _ M F) as (b & Hb & Ib). cbn [fst snd tipe bind] in Hb. injection Hb as <-.
  apply alookup_in; auto. rewrite (mapM_map _ fst (fun f => camel (fst f)) _ _ M).
  - pose proof (check_context c I) as CC. unfold checkContext in CC. apply andb_true_iff in CC as [_ CC]. now apply nodupb_NoDup in CC.
  - intros f b E'. apply bind_ok in E' as (g & _ & E'). now injection E' as <-.
Qed.

(** What the checks say of one struct. *)
Record facts (s : struct) (rv : string) : Prop := {
  fa_recv : receiverName (sname s) = Ok rv;
  fa_goName : goName rv = true;
  fa_rvtypes : ~ In rv (structTypes camel fs);
  fa_rvlocals : ~ In rv ("cur" :: "data" :: "err" :: flat_map localsM (members_of s));
  fa_rvctx : ~ In rv (scontexts s);
  fa_ctxlocals : forall x, In x (scontexts s) -> ~ In x ("cur" :: "data" :: "err" :: flat_map localsM (members_of s));
  fa_ctxnodup : NoDup (scontexts s);
  fa_ctxname : forall x, In x (scontexts s) -> goName x = true;
  fa_ctxused : forall x, In x (scontexts s) -> ~ In x usedNames;
  fa_ctxtypes : forall x, In x (scontexts s) -> ~ In x (structTypes camel fs);
  fa_ctxdef : forall x, In x (scontexts s) -> exists c, Context r x = Some c;
  fa_fields : forallb goName (map camel (flat_map fieldNames (members_of s))) = true;
  fa_parse : ~ In "Parse" (map camel (flat_map fieldNames (members_of s)));
  fa_nodup : NoDup (map camel (flat_map fieldNames (members_of s)));
  fa_check : checkMembers r (scontexts s) [] (members_of s) = true;
  fa_defaults : forallb defaultsM (members_of s) = true }.

Lemma struct_facts : forall s, In s (definedStructs fs) -> exists rv, facts s rv.
Proof.
  intros s I. destruct cf_parts as (_ & _ & _ & _ & _ & CS). specialize (CS s I). pose proof (pk_check _ _ _ _ _ PK s I) as CK.
  unfold namesStruct in CS. destruct (receiverName (sname s)) as [rv| | |] eqn:RV; try (rewrite andb_false_r in CS; discriminate).
  unfold checkStruct, checkScope in CK. rewrite RV in CK.
  repeat rewrite andb_true_iff in CS. repeat rewrite andb_true_iff in CK. repeat rewrite negb_true_iff in *. repeat rewrite memb_notin in *. repeat rewrite disjointb_spec in *.
  repeat rewrite nodupb_NoDup in *. 
  destruct CS as (((((A1 & A2) & A4) & A5) & A6) & (A7 & A8)).
  destruct CK as (((((B1 & B2) & B3) & B4) & B5) & (((B6 & B7) & B8) & B9)). rewrite forallb_forall in A4, B5.
  exists rv. constructor; auto. intros x J. specialize (B5 x J). destruct (Context r x); [eauto|discriminate].
Qed.

Lemma local_ok : forall s rv y, facts s rv -> In y ("err" :: flat_map localsM (members_of s)) -> local rv (scontexts s) (structTypes camel fs) y.
Proof.
  intros s rv y F I. assert (N : In y ["err"; "i"; "idx"; "tmp"; "restore"]).
  { destruct I as [<-|I]; [cbn; tauto|]. apply in_flat_map in I as (m & _ & I). eapply localsM_names; eauto. }
  assert (J : In y ("cur" :: "data" :: "err" :: flat_map localsM (members_of s))) by (cbn [In] in *; tauto).
  constructor.
  - cbn [In] in N. decompose [or] N; try contradiction; subst; reflexivity.
  - intros ->. exact (fa_rvlocals _ _ F J).
  - intros ->. cbn in N. decompose [or] N; try contradiction; discriminate.
  - intros ->. cbn in N. decompose [or] N; try contradiction; discriminate.
  - intros K. exact (fa_ctxlocals _ _ F y K J).
  - intros K. cbn [In] in N. decompose [or] N; try contradiction; subst; cbn in K; decompose [or] K; try contradiction; discriminate.
  - intros K. destruct cf_parts as (_ & _ & _ & D & _). apply (D y K). cbn [In localNames] in *. tauto.
Qed.

Lemma not_type : forall y, In y localNames -> ~ In y (structTypes camel fs).
Proof. intros y I J. destruct cf_parts as (_ & _ & _ & D & _). exact (D y J I). Qed.

Definition params (s : struct) : scope := ("data", Tg goBytesT) :: map (fun x => (x, Tstruct (camel x))) (scontexts s).

(** The scope of a Parse method. *)
Lemma method_scope : forall s rv, facts s rv ->
  sound camel rv (camel (sname s)) (scontexts s) (structTypes camel fs)
    [("cur", Tg goBytesT) :: (rv, Tg (GPtr (camel (sname s)))) :: params s].
Proof.
  intros s rv F. pose proof (fa_rvlocals _ _ F) as RL. cbn [In] in RL.
  assert (LK : forall x, lookupS x [("cur", Tg goBytesT) :: (rv, Tg (GPtr (camel (sname s)))) :: params s] =
    if String.eqb x "cur" then Some (Tg goBytesT) else if String.eqb x rv then Some (Tg (GPtr (camel (sname s)))) else
    if String.eqb x "data" then Some (Tg goBytesT) else if memb x (scontexts s) then Some (Tstruct (camel x)) else None).
  { intros x. unfold params. cbn [lookupS alookup]. rewrite lookup_params.
    destruct (String.eqb x "cur"), (String.eqb x rv), (String.eqb x "data"), (memb x (scontexts s)); reflexivity. }
  assert (NO : forall x, x <> "cur" -> x <> rv -> x <> "data" -> ~ In x (scontexts s) ->
    lookupS x [("cur", Tg goBytesT) :: (rv, Tg (GPtr (camel (sname s)))) :: params s] = None).
  { intros x H1 H2 H3 H4. rewrite LK. apply memb_notin in H4. rewrite H4.
    destruct (String.eqb_spec x "cur"), (String.eqb_spec x rv), (String.eqb_spec x "data"); congruence. }
  constructor.
  - rewrite LK. destruct (String.eqb_spec rv "cur") as [E|]; [exfalso; apply RL; auto|]. now rewrite String.eqb_refl.
  - rewrite LK. reflexivity.
  - rewrite LK. destruct (String.eqb_spec "data" rv) as [E|]; [exfalso; apply RL; auto|]. reflexivity.
  - intros x I. rewrite LK. pose proof (fa_ctxlocals _ _ F x I) as XL. cbn [In] in XL. pose proof (fa_rvctx _ _ F) as RX.
    destruct (String.eqb_spec x "cur") as [E|]; [exfalso; apply XL; auto|].
    destruct (String.eqb_spec x rv) as [E|]; [exfalso; subst; auto|].
    destruct (String.eqb_spec x "data") as [E|]; [exfalso; apply XL; auto|]. apply memb_in in I. now rewrite I.
  - intros x I. apply NO.
    + intros ->. cbn in I. decompose [or] I; try contradiction; discriminate.
    + intros ->. exact (receiver_used _ _ (fa_recv _ _ F) I).
    + intros ->. cbn in I. decompose [or] I; try contradiction; discriminate.
    + intros J. exact (fa_ctxused _ _ F x J I).
  - intros x I. apply NO.
    + intros ->. apply (not_type "cur"); [cbn; tauto|auto].
    + intros ->. exact (fa_rvtypes _ _ F I).
    + intros ->. apply (not_type "data"); [cbn; tauto|auto].
    + intros J. exact (fa_ctxtypes _ _ F x J I).
Qed.

Lemma struct_declared : forall s rv ds, facts s rv -> structDecl camel r s = Ok ds -> declared camel r ds (flat_map fieldsM (members_of s)).
Proof.
  intros s rv ds F D nm t I. destruct (structDecl_fields _ _ _ _ D) as [A B]. destruct (B nm t I) as (g & H1 & H2). exists g. split; auto.
  apply alookup_in; auto. rewrite A. apply F.
Qed.

Notation NamesOf s rv := (map fst ([(rv, Tg (GPtr (camel (sname s))))] ++ params s)).
Lemma params_names : forall s, map fst (params s) = "data" :: scontexts s.
Proof. intros s. unfold params. cbn [map fst]. f_equal. rewrite map_map. apply map_id. Qed.

Lemma params_ok : forall s rv, facts s rv -> distinct ("data" :: scontexts s) = true /\ forallb goName ("data" :: scontexts s) = true /\
  forallb (fun x => match alookup (camel x) (ptypes p) with Some _ => true | None => false end) (scontexts s) = true.
Proof.
  intros s rv F. split; [|split].
  - apply distinct_NoDup. constructor; [|apply F]. intros I. apply (fa_ctxlocals _ _ F "data" I). cbn. auto.
  - cbn [forallb]. replace (goName "data") with true by reflexivity. apply forallb_forall. intros x I. apply (fa_ctxname _ _ F x I).
  - apply forallb_forall. intros x I. destruct (fa_ctxdef _ _ F x I) as (c & E). destruct (context_in _ _ E) as [J <-].
    destruct (gen_context c J) as (fl & -> & _). reflexivity.
Qed.

Lemma builtin_pkg : forall x, In x usedNames -> builtin (packageNames p) [] x = true.
Proof. intros x I. unfold builtin. rewrite (pk_pkg x I). reflexivity. Qed.

Lemma method_ok : forall s f, In s (definedStructs fs) -> parseFunc camel r s = Ok f ->
  fitsMs r (scontexts s) [] (members_of s) = true -> methodOk camel p (camel (sname s), f) = true.
Proof.
  intros s f I Hf FIT. destruct (struct_facts s I) as (rv & F). destruct (gen_struct s I) as (ds & f' & ct & Hds & Hf' & _ & L1 & _ & _).
  unfold parseFunc in Hf. rewrite (fa_recv _ _ F) in Hf. cbn [bind] in Hf. apply bind_ok in Hf as (ms & Hms & Hf). injection Hf as <-.
  unfold methodOk. cbn [fst snd frecv]. rewrite L1. destruct (structDecl_fields _ _ _ _ Hds) as [DN _].
  replace (inb "Parse" (map fst ds)) with false by (symmetry; rewrite DN; apply memb_notin; apply F). cbn [negb andb].
  unfold funcOk. cbn [fparams fbody]. change (("data", Tg goBytesT) :: map (fun x => (x, Tstruct (camel x))) (scontexts s)) with (params s).
  destruct (params_ok s rv F) as (P1 & P2 & P3). rewrite P3. rewrite map_app, params_names. cbn [map app fst].
  assert (N0 : negb (inb rv ("data" :: scontexts s)) = true).
  { apply negb_true_iff. apply memb_notin. intros [E|J]; [|exact (fa_rvctx _ _ F J)]. apply (fa_rvlocals _ _ F). rewrite <- E. cbn. auto. }
  change (distinct (rv :: "data" :: scontexts s)) with (negb (inb rv ("data" :: scontexts s)) && distinct ("data" :: scontexts s)).
  change (forallb goName (rv :: "data" :: scontexts s)) with (goName rv && forallb goName ("data" :: scontexts s)).
  rewrite N0, P1, P2, (fa_goName _ _ F). cbn [andb].
  match goal with |- context [forallb (typeOk ?a ?b ?c) ?l] => replace (forallb (typeOk a b c) l) with true end.
  2:{ symmetry. cbn [fst snd forallb goBytesT typeOk]. rewrite !builtin_pkg by (cbn; tauto). reflexivity. }
  replace (endsInReturn (SDecl "cur" (EVar "data") :: ms ++ [SReturn cur ENil])) with true.
  2:{ symmetry. unfold endsInReturn. change (SDecl "cur" (EVar "data") :: ms ++ [SReturn cur ENil]) with ((SDecl "cur" (EVar "data") :: ms) ++ [SReturn cur ENil]).
      rewrite rev_app_distr. reflexivity. }
  cbn [andb].
  set (G0 := (rv, Tg (GPtr (camel (sname s)))) :: params s). set (G1 := [("cur", Tg goBytesT) :: G0]).
  pose proof (method_scope s rv F) as S1. change (sound camel rv (camel (sname s)) (scontexts s) (structTypes camel fs) G1) in S1.
  assert (MS : Forall (fun st => plain st = true /\ checkS camel (ptypes p) (pmethods p) (packageNames p) (goBytesT, GError) G1 st = Some G1) ms).
  { apply (members_ok camel (ptypes p) (pmethods p) (packageNames p) (goBytesT, GError) rv (camel (sname s)) (scontexts s) (structTypes camel fs) r ds (members_of s)) with (k := []); auto; try apply F.
    - apply Forall_forall. intros m _. apply member_ok; auto; try apply F.
      + exact pk_pkg.
      + exact pk_meth.
      + intros x n sz H. eapply pk_ctx; eauto.
    - intros y J. apply local_ok; auto. cbn. auto.
    - intros n sz H. discriminate.
    - eapply struct_declared; eauto. }
  assert (LAST : checkS camel (ptypes p) (pmethods p) (packageNames p) (goBytesT, GError) G1 (SReturn cur ENil) = Some G1).
  { cbn [checkS]. unfold fits. rewrite (type_cur camel (ptypes p) (packageNames p) rv (camel (sname s)) (scontexts s) (structTypes camel fs) G1 S1).
    cbn [typeE fst snd]. replace (builtin (packageNames p) G1 "nil") with true; [reflexivity|]. symmetry.
    apply (sound_builtin camel (packageNames p) rv (camel (sname s)) (scontexts s) (structTypes camel fs)); auto; [exact pk_pkg|cbn; tauto]. }
  cbn [checkSs].
  assert (D0 : checkS camel (ptypes p) (pmethods p) (packageNames p) (goBytesT, GError) [G0] (SDecl "cur" (EVar "data")) = Some G1).
  { assert (L : lookupS "data" [G0] = Some (Tg goBytesT)) by exact (so_data _ _ _ _ _ _ S1).
    cbn [checkS typeE]. change (String.eqb "data" "_") with false. cbn iota. rewrite L. unfold declare. change (goName "cur") with true.
    replace (alookup "cur" G0) with (@None ty); [reflexivity|]. symmetry. unfold G0, params. cbn [alookup]. rewrite lookup_params.
    pose proof (fa_rvlocals _ _ F) as RL. cbn [In] in RL. destruct (String.eqb_spec "cur" rv) as [E|]; [exfalso; apply RL; auto|].
    change (String.eqb "cur" "data") with false. cbn iota. destruct (memb "cur" (scontexts s)) eqn:M; auto. apply memb_in in M.
    exfalso. apply (fa_ctxlocals _ _ F "cur" M). cbn. auto. }
  rewrite D0. rewrite usesSs_skip.
  - rewrite checkSs_steps; auto. apply Forall_app. split; auto.
  - rewrite Forall_forall in *. intros st J. apply plain_keeps. apply MS. auto.
  - reflexivity.
Qed.

Lemma ctor_ok : forall s c, In s (definedStructs fs) -> ctorFunc camel s = Ok c -> ctorOk camel p (camel (sname s), c) = true.
Proof.
  intros s c I Hc. destruct (struct_facts s I) as (rv & F). destruct (gen_struct s I) as (ds & f & ct & _ & Hf & _ & L1 & L2 & _).
  unfold ctorFunc in Hc. rewrite (fa_recv _ _ F) in Hc. cbn [bind] in Hc. injection Hc as <-.
  unfold ctorOk, funcOk. cbn [fst snd fparams fbody]. change (("data", Tg goBytesT) :: map (fun x => (x, Tstruct (camel x))) (scontexts s)) with (params s).
  destruct (params_ok s rv F) as (P1 & P2 & P3). cbn [app]. rewrite params_names, P1, P2, P3. cbn [andb].
  assert (INT : In (camel (sname s)) (structTypes camel fs)) by (unfold structTypes; apply in_map_iff; eauto).
  replace (forallb (typeOk (ptypes p) (packageNames p) []) [goBytesT; GPtr (camel (sname s)); GError]) with true.
  2:{ symmetry. cbn [forallb goBytesT typeOk lookupS]. rewrite !builtin_pkg by (cbn; tauto). rewrite L1. reflexivity. }
  change (endsInReturn _) with true. cbn [andb].
  set (res := (GPtr (camel (sname s)), GError)). set (me := camel (sname s)) in *.
  set (G1 := [(rv, Tg (GPtr me)) :: params s]). set (G2 := [("err", Tg GError) :: (rv, Tg (GPtr me)) :: params s]).
  pose proof (fa_rvlocals _ _ F) as RL. cbn [In] in RL.
  assert (CL : forall x, In x (scontexts s) -> x <> "cur" /\ x <> "data" /\ x <> "err" /\ x <> rv).
  { intros x J. pose proof (fa_ctxlocals _ _ F x J) as X. cbn [In] in X. repeat split; intros E; subst; try (apply X; auto; fail). exact (fa_rvctx _ _ F J). }
  assert (U : forall x, In x usedNames -> x <> rv /\ x <> "data" /\ x <> "err" /\ ~ In x (scontexts s)).
  { intros x J. repeat split.
    - intros ->. exact (receiver_used _ _ (fa_recv _ _ F) J).
    - intros ->. cbn in J. decompose [or] J; try contradiction; discriminate.
    - intros ->. cbn in J. decompose [or] J; try contradiction; discriminate.
    - intros K. exact (fa_ctxused _ _ F x K J). }
  assert (LP : forall x, x <> "data" -> ~ In x (scontexts s) -> alookup x (params s) = None).
  { intros x N1 N2. unfold params. cbn [alookup]. rewrite lookup_params. apply memb_notin in N2. rewrite N2. destruct (String.eqb_spec x "data"); congruence. }
  assert (B0 : forall x, In x usedNames -> builtin (packageNames p) [params s] x = true).
  { intros x J. unfold builtin. rewrite (pk_pkg x J). cbn [lookupS negb andb]. destruct (U x J) as (_ & U2 & _ & U4). now rewrite (LP x U2 U4). }
  assert (B2 : forall x, In x usedNames -> builtin (packageNames p) G2 x = true).
  { intros x J. unfold builtin, G2. rewrite (pk_pkg x J). cbn [lookupS negb andb alookup]. destruct (U x J) as (U1 & U2 & U3 & U4).
    destruct (String.eqb_spec x "err"); [congruence|]. destruct (String.eqb_spec x rv); [congruence|]. now rewrite (LP x U2 U4). }
  assert (T1 : forall x t, goName x = true -> lookupS x G1 = Some t -> typeE (ptypes p) (packageNames p) G1 (EVar x) = Some t) by (intros; now apply type_var).
  assert (T2 : forall x t, goName x = true -> lookupS x G2 = Some t -> typeE (ptypes p) (packageNames p) G2 (EVar x) = Some t) by (intros; now apply type_var).
  assert (LR1 : lookupS rv G1 = Some (Tg (GPtr me))) by (unfold G1; cbn [lookupS alookup]; now rewrite String.eqb_refl).
  assert (LR2 : lookupS rv G2 = Some (Tg (GPtr me))).
  { unfold G2. cbn [lookupS alookup]. destruct (String.eqb_spec rv "err") as [E|]; [exfalso; apply RL; auto|]. now rewrite String.eqb_refl. }
  assert (D1 : checkS camel (ptypes p) (pmethods p) (packageNames p) res [params s] (SDecl rv (ENew me)) = Some G1).
  { cbn [checkS typeE typeOk]. rewrite B0 by (cbn; tauto). rewrite L1. cbn [lookupS andb].
    rewrite (LP me); [| |].
    - unfold declare. rewrite (fa_goName _ _ F). rewrite LP; [reflexivity| |apply F]. intros ->. apply RL. auto.
    - intros E. apply (not_type "data"); [cbn; tauto|]. now rewrite <- E.
    - intros J. exact (fa_ctxtypes _ _ F _ J INT). }
  assert (D2 : checkS camel (ptypes p) (pmethods p) (packageNames p) res G1 (SParseDecl "err" (LVar rv) (EVar "data") (map EVar (scontexts s))) = Some G2).
  { cbn [checkS]. unfold callOk. cbn [lexpr]. rewrite (T1 rv _ (fa_goName _ _ F) LR1), L2, (parse_params s f Hf), map_length, PeanoNat.Nat.eqb_refl.
    assert (TD : typeE (ptypes p) (packageNames p) G1 (EVar "data") = Some (Tg goBytesT)).
    { apply T1; [reflexivity|]. unfold G1, params. cbn [lookupS alookup]. destruct (String.eqb_spec "data" rv) as [E|]; [exfalso; apply RL; auto|]. reflexivity. }
    unfold fits. rewrite TD. change (assignable (Tg goBytesT) goBytesT) with true. cbn [andb].
    replace (forallb _ (combine (map EVar (scontexts s)) (scontexts s))) with true.
    2:{ symmetry. assert (X : forall l, incl l (scontexts s) -> forallb (fun ap => match typeE (ptypes p) (packageNames p) G1 (fst ap) with Some (Tstruct m) => String.eqb m (camel (snd ap)) | _ => false end) (combine (map EVar l) l) = true).
        { induction l as [|x l IH]; intros IN; auto. cbn [map combine forallb fst snd].
          assert (J : In x (scontexts s)) by (apply IN; cbn; auto). destruct (CL x J) as (_ & C2 & _ & C4).
          rewrite (T1 x (Tstruct (camel x))).
          - rewrite String.eqb_refl. apply IH. intros y Hy. apply IN. cbn. auto.
          - apply (fa_ctxname _ _ F x J).
          - unfold G1, params. cbn [lookupS alookup]. rewrite lookup_params. destruct (String.eqb_spec x rv); [congruence|].
            destruct (String.eqb_spec x "data"); [congruence|]. apply memb_in in J. now rewrite J. }
        apply X. apply incl_refl. }
    unfold declare, G1. change (goName "err") with true. cbn [alookup]. destruct (String.eqb_spec "err" rv) as [E|]; [exfalso; apply RL; auto|].
    rewrite LP; [reflexivity|discriminate|]. intros J. apply CL in J. tauto. }
  assert (D3 : checkS camel (ptypes p) (pmethods p) (packageNames p) res G2 (SIf (ENotNil (EVar "err")) [SReturn ENil (EVar "err")]) = Some G2).
  { apply checkS_if'.
    - cbn [typeE]. change (String.eqb "err" "_") with false. cbn iota. change (lookupS "err" G2) with (Some (Tg GError)). cbn [nilable]. now rewrite B2 by (cbn; tauto).
    - unfold blockOk. rewrite checkSs_one by reflexivity. cbn [checkS]. unfold fits, res. cbn [fst snd typeE].
      change (builtin (packageNames p) ([] :: G2) "nil") with (builtin (packageNames p) G2 "nil"). rewrite B2 by (cbn; tauto).
      change (String.eqb "err" "_") with false. cbn iota. change (lookupS "err" ([] :: G2)) with (Some (Tg GError)). reflexivity. }
  assert (D4 : checkS camel (ptypes p) (pmethods p) (packageNames p) res G2 (SReturn (EVar rv) ENil) = Some G2).
  { cbn [checkS]. unfold fits. rewrite (T2 rv _ (fa_goName _ _ F) LR2). unfold res. cbn [fst snd typeE]. rewrite B2 by (cbn; tauto).
    cbn [assignable]. rewrite sameG_refl. reflexivity. }
  assert (ALL : checkSs camel (ptypes p) (pmethods p) (packageNames p) res [params s]
    [SDecl rv (ENew me); SParseDecl "err" (LVar rv) (EVar "data") (map EVar (scontexts s)); SIf (ENotNil (EVar "err")) [SReturn ENil (EVar "err")];
     SReturn (EVar rv) ENil] = Some G2).
  { cbn [checkSs]. rewrite D1. replace (usesSs rv _) with true; [|symmetry; cbn [usesSs usesS lexpr usesE]; now rewrite String.eqb_refl].
    rewrite D2. change (usesSs "err" _) with true. cbn iota. now rewrite D3, D4. }
  assert (Z : match Some G2 with Some _ => true | None => false end = true) by reflexivity. rewrite <- ALL in Z. exact Z.
Qed.

Lemma fieldType_ok : forall ctxs k t g, checkType r ctxs k t = true -> tipe camel r t = Ok g -> typeOk (ptypes p) (packageNames p) [] g = true.
Proof.
  assert (B : forall c b g, checkBase r c b = true -> tipe camel r b = Ok g -> typeOk (ptypes p) (packageNames p) [] g = true).
  { intros c b g. apply (typeOk_base camel (ptypes p) (pmethods p) (packageNames p) "" "" [] (structTypes camel fs)); auto.
    - exact pk_pkg.
    - exact pk_meth. }
  intros ctxs k t g C T. destruct t as [| | | | |b i|b [[f|i]|]]; cbn [checkType] in C; try (eapply B; eauto; fail).
  - apply andb_true_iff in C as [CB CC]. cbn [tipe] in T. apply bind_ok in T as (n & Hn & T). apply bind_ok in T as (h & Hh & T). injection T as <-.
    cbn [typeOk]. rewrite (B _ _ _ CB Hh). assert (0 <= n < two63) by (apply integerOf_value in Hn; unfold goodCount in CC; rewrite Hn in CC; lia). lia.
  - apply andb_true_iff in C as [CB CC]. cbn [tipe] in T. apply bind_ok in T as (h & Hh & T). injection T as <-. exact (B _ _ _ CB Hh).
  - apply andb_true_iff in C as [CB CC]. cbn [tipe] in T. apply bind_ok in T as (h & Hh & T). injection T as <-. exact (B _ _ _ CB Hh).
  - cbn [tipe] in T. apply bind_ok in T as (h & Hh & T). injection T as <-. exact (B _ _ _ C Hh).
Qed.

Lemma types_ok : forallb (typeDeclOk p) (ptypes p) = true.
Proof.
  pose proof (pk_gen _ _ _ _ _ PK) as G. unfold genProgram in G. apply bind_ok in G as (cs & Hc & H). apply bind_ok in H as (ss & Hs & H). injection H as E.
  assert (EP : ptypes p = cs ++ map (fun x => let '(n, d, _, _) := x in (n, d)) ss) by (rewrite <- E; reflexivity).
  assert (X : forall t, In t cs \/ In t (map (fun x => let '(n, d, _, _) := x in (n, d)) ss) -> typeDeclOk p t = true).
  2:{ apply forallb_forall. intros t I. apply X. rewrite EP in I. now apply in_app_or in I. }
  intros t [I|I].
  - destruct (mapM_in_r _ _ _ _ Hc I) as (c & Ic & Hx). unfold contextDecl in Hx. apply bind_ok in Hx as (fl & Hf & Hx). injection Hx as <-.
    pose proof (check_context c Ic) as CC. unfold checkContext in CC. repeat rewrite andb_true_iff in CC. destruct CC as ((C1 & C2) & C3).
    apply nodupb_NoDup in C3. rewrite forallb_forall in C1. destruct cf_parts as (_ & _ & _ & _ & GN & _).
    assert (NM : map fst fl = map (fun f => camel (fst f)) (cmembers c)).
    { apply (mapM_map _ _ _ _ _ Hf). intros f b E'. apply bind_ok in E' as (g & _ & E'). now injection E' as <-. }
    unfold typeDeclOk. cbn [snd]. rewrite NM. repeat rewrite andb_true_iff. split; [split|].
    + now apply distinct_NoDup.
    + apply forallb_forall. intros x J. apply in_map_iff in J as (f & <- & J). exact (GN c f Ic J).
    + apply forallb_forall. intros x J. destruct (mapM_in_r _ _ _ _ Hf J) as (f & If & Hx). apply bind_ok in Hx as (g & Hg & Hx). injection Hx as <-.
      cbn [snd]. specialize (C1 f If). destruct (snd f) as [sz cst| | | | | |] eqn:EF; try discriminate. apply (fieldType_ok [] [] (TInt sz cst)); auto.
  - apply in_map_iff in I as (x & <- & Ix). destruct (mapM_in_r _ _ _ _ Hs Ix) as (s & Is & Hx). unfold structureDecl in Hx.
    apply bind_ok in Hx as (ds & Hds & Hx). apply bind_ok in Hx as (f & Hf & Hx). apply bind_ok in Hx as (ct & Hct & Hx). injection Hx as <-.
    destruct (struct_facts s Is) as (rv & F). destruct (structDecl_fields _ _ _ _ Hds) as [A B].
    unfold typeDeclOk. cbn [snd]. rewrite A. repeat rewrite andb_true_iff. split; [split|].
    + apply distinct_NoDup. apply F.
    + apply F.
    + apply forallb_forall. intros [n g] J. cbn [snd].
      assert (Jn : In n (map camel (flat_map fieldNames (members_of s)))) by (rewrite <- A; apply (in_map fst _ _ J)).
      rewrite fieldNames_list, map_map in Jn. apply in_map_iff in Jn as ([nm t] & EN & Jf). cbn [fst] in EN. subst n.
      destruct (B nm t Jf) as (g' & Hg & Jg).
      assert (ND : NoDup (map fst ds)) by (rewrite A; apply F).
      assert (g' = g). { pose proof (alookup_in _ _ _ ND J) as L1. pose proof (alookup_in _ _ _ ND Jg) as L2. congruence. }
      subst g'. destruct (struct_types _ _ _ _ _ PK s Is nm t Jf) as (k & CT). eapply fieldType_ok; eauto.
Qed.

Theorem package_compiles : fitsFiles r fs = true -> compiles camel p = true.
Proof.
  intros FIT. unfold fitsFiles in FIT. rewrite forallb_forall in FIT.
  unfold compiles. repeat rewrite andb_true_iff. rewrite names_eq, methods_eq. destruct cf_parts as (A & B & _). 
  pose proof (pk_gen _ _ _ _ _ PK) as G. unfold genProgram in G. apply bind_ok in G as (cs & Hc & H). apply bind_ok in H as (ss & Hs & H). injection H as E.
  assert (E1 : pmethods p = map (fun x => let '(n, _, f, _) := x in (n, f)) ss) by (rewrite <- E; reflexivity).
  assert (E2 : pctors p = map (fun x => let '(n, _, _, c) := x in (n, c)) ss) by (rewrite <- E; reflexivity).
  assert (X : forall x, In x ss -> exists s, In s (definedStructs fs) /\ exists ds f c, x = (camel (sname s), ds, f, c) /\ parseFunc camel r s = Ok f /\ ctorFunc camel s = Ok c).
  { intros x Ix. destruct (mapM_in_r _ _ _ _ Hs Ix) as (s & Is & Hx). unfold structureDecl in Hx.
    apply bind_ok in Hx as (ds & Hds & Hx). apply bind_ok in Hx as (f & Hf & Hx). apply bind_ok in Hx as (ct & Hct & Hx). injection Hx as <-.
    exists s. split; auto. exists ds, f, ct. auto. }
  split; [split; [split; [split; [split|]|]|]|].
  - now apply distinct_NoDup.
  - exact B.
  - apply distinct_NoDup. exact nodup_structs.
  - exact types_ok.
  - rewrite E1. apply forallb_forall. intros m I. apply in_map_iff in I as (x & <- & Ix). destruct (X x Ix) as (s & Is & ds & f & c & -> & Hf & Hct).
    apply method_ok; auto.
  - rewrite E2. apply forallb_forall. intros m I. apply in_map_iff in I as (x & <- & Ix). destruct (X x Ix) as (s & Is & ds & f & c & -> & Hf & Hct).
    now apply ctor_ok.
Qed.
End Prog.
