(** C84: members may be moved into structs of their own. *)
From Coq Require Import ZArith String List Bool Lia ZifyBool ZifyNat Permutation.
From Verif Require Import Base Ast IntervalsModel InspectModel InspectSpec InspectProofs GoLang GenModel GenDecode GenCheck GenSim GenSimBody GenSimProg GenMono WireSpec WireProofs WireComplete WireFacts GenTerm GenRecv
  PackageSpec PackageProofs PackageFacts GroupSpec GroupProofs GenExamples GenWitness.
Import ListNotations.
Open Scope string_scope.
Open Scope list_scope.
Open Scope Z_scope.

Definition fieldsOf (ms : list member) : list (string * type) := flat_map allFields ms.
Definition caseFields (cs : list ucase) : list (string * type) := flat_map (fun c => match c with UCase _ ms => flat_map allFields ms end) cs.
Definition groupFields (g : list (string * struct)) : list (string * type) := flat_map (fun xt => fieldsOf (members_of (snd xt))) g.
Definition groupMembers (g : list (string * struct)) : list (string * type) := map (fun xt => (fst xt, TStruct (sname (snd xt)))) g.

(** The fields of both arrangements. *)
Lemma regroup_fields :
  (forall o g ms ms', regroup o g ms ms' -> exists l, map fst l = o /\ Permutation (fieldsOf ms) (l ++ groupFields g) /\ Permutation (fieldsOf ms') (l ++ groupMembers g)) /\
  (forall o g cs cs', regroupCases o g cs cs' -> exists l, map fst l = o /\ Permutation (caseFields cs) (l ++ groupFields g) /\ Permutation (caseFields cs') (l ++ groupMembers g)).
Proof.
  assert (MIX : forall (l1 l2 a b : list (string * type)), Permutation ((l1 ++ a) ++ (l2 ++ b)) ((l1 ++ l2) ++ (a ++ b))).
  { intros. rewrite <- !app_assoc. apply Permutation_app_head. rewrite !app_assoc. apply Permutation_app_tail. apply Permutation_app_comm. }
  assert (GF : forall g g', groupFields (g ++ g') = groupFields g ++ groupFields g') by (intros; unfold groupFields; now rewrite flat_map_app).
  assert (GM : forall g g', groupMembers (g ++ g') = groupMembers g ++ groupMembers g') by (intros; unfold groupMembers; now rewrite map_app).
  apply regroup_mutind.
  - exists []. repeat split; constructor.
  - intros m o g ms ms' _ (l & <- & P1 & P2). exists (allFields m ++ l). split; [unfold namesIn; cbn [flat_map]; now rewrite app_nil_r, map_app|].
    split; unfold fieldsOf; cbn [flat_map]; rewrite <- app_assoc; apply Permutation_app_head; assumption.
  - intros u tag len cs cs' o0 g0 o g ms ms' _ (l0 & <- & P1 & P2) _ (l & <- & P3 & P4). exists (l0 ++ l). split; [now rewrite map_app|]. rewrite GF, GM.
    split; unfold fieldsOf; cbn [flat_map allFields]; (eapply Permutation_trans; [apply Permutation_app; [exact P1 + exact P2|exact P3 + exact P4]|apply MIX]).
  - intros x t o g ms ms' _ _ (l & <- & P1 & P2). exists l. split; auto. split.
    + unfold fieldsOf in *. rewrite flat_map_app. unfold groupFields. cbn [flat_map snd]. fold (groupFields g). unfold fieldsOf.
      eapply Permutation_trans; [apply Permutation_app_head; exact P1|]. rewrite !app_assoc. apply Permutation_app_tail. apply Permutation_app_comm.
    + unfold fieldsOf in *. cbn [flat_map allFields app]. unfold groupMembers. cbn [map fst snd]. eapply Permutation_trans; [apply perm_skip; exact P2|]. apply Permutation_middle.
  - exists []. repeat split; constructor.
  - intros l ms ms' cs cs' o g o' g' _ (l1 & <- & P1 & P2) _ (l2 & <- & P3 & P4). exists (l1 ++ l2). split; [now rewrite map_app|]. rewrite GF, GM.
    split; unfold caseFields; cbn [flat_map]; (eapply Permutation_trans; [apply Permutation_app; [exact P1 + exact P2|exact P3 + exact P4]|apply MIX]).
Qed.

Lemma flat_apart : forall A B (f : A -> list B) l, NoDup (flat_map f l) -> forall a b y, In a l -> In b l -> a <> b -> In y (f a) -> ~ In y (f b).
Proof.
  induction l as [|x l IH]; intros ND a b y Ia Ib NE Ya Yb; [destruct Ia|]. cbn [flat_map] in ND.
  destruct Ia as [->|Ia], Ib as [->|Ib]; try congruence.
  - apply (nodup_apart _ _ _ y ND Ya). apply in_flat_map. eauto.
  - apply (nodup_apart _ _ _ y ND Yb). apply in_flat_map. eauto.
  - eapply (IH (nodup_right _ _ _ ND) a b y); eauto.
Qed.

Section Pack.
Variable camel : string -> string.
Variable os : nat -> orders.
Variable fs : list file.
Variable r : resolver.
Variable p : program.
Hypothesis PK : package camel os fs r p.
Notation cv := (Constant r).
Variable stay : list string.
Variable groups : list (string * struct).
Variable s s' : struct.
Hypothesis DS : defines fs s.
Hypothesis DS' : defines fs s'.
Hypothesis DG : forall x t, In (x, t) groups -> defines fs t.
Hypothesis EC : scontexts s' = scontexts s.
Hypothesis RG : regroup stay groups (members_of s) (members_of s').
Variable data : bytes.
Variable args : list value.
Hypothesis VA : ctxValues camel r s args.
Hypothesis VD : goBytes data.
Notation key := (fun f : string * type => camel (fst f)).
Notation dec n := (decStruct camel r n s (blank camel cv s) (contextsOf s args) data).
Notation dec' n := (decStruct camel r n s' (blank camel cv s') (contextsOf s args) data).

Lemma call_flat : validCall camel fs r s (blank camel cv s) data args.
Proof. constructor; auto. eapply blank_goStruct; eauto. now apply (defines_in fs). Qed.
Lemma call_grouped : validCall camel fs r s' (blank camel cv s') data args.
Proof. constructor; auto. - unfold ctxValues in *. now rewrite EC. - eapply blank_goStruct; eauto. now apply (defines_in fs). Qed.
Lemma contexts_same : contextsOf s' args = contextsOf s args.
Proof. unfold contextsOf. now rewrite EC. Qed.

Lemma group_struct : forall x t, In (x, t) groups -> Struct r (sname t) = Some t /\ checkStruct camel r t = true.
Proof.
  intros x t I. pose proof (DG x t I) as D. assert (S : Struct r (sname t) = Some t) by (apply (pk_struct camel os fs r p PK); [apply D|split; auto; now apply (defines_in fs)]).
  split; auto. eapply str_check; eauto. apply D.
Qed.
Lemma fields_flat : exists l, map fst l = stay /\ Permutation (fieldsOf (members_of s)) (l ++ groupFields groups) /\ Permutation (fieldsOf (members_of s')) (l ++ groupMembers groups) /\
  NoDup (map key l ++ map key (groupFields groups)) /\ NoDup (map key l ++ map key (groupMembers groups)).
Proof.
  destruct (proj1 regroup_fields _ _ _ _ RG) as (l & E & P1 & P2). exists l. split; auto. split; auto. split; auto. split.
  - rewrite <- map_app. eapply Permutation_NoDup; [apply Permutation_map; exact P1|]. eapply struct_nodup; eauto. now apply (defines_in fs).
  - rewrite <- map_app. eapply Permutation_NoDup; [apply Permutation_map; exact P2|]. eapply struct_nodup; eauto. now apply (defines_in fs).
Qed.
Lemma in_group : forall x t y, In (x, t) groups -> In y (map camel (namesIn (members_of t))) -> In y (map key (groupFields groups)).
Proof.
  intros x t y I J. unfold namesIn in J. rewrite map_map in J. apply in_map_iff in J as ([nm ty] & <- & J). apply (in_map key _ (nm, ty)). apply in_flat_map. exists (x, t). auto.
Qed.
Lemma apart1 : forall nm x t, In nm stay -> In (x, t) groups -> camel nm <> camel x /\ ~ In (camel nm) (map camel (namesIn (members_of t))).
Proof.
  intros nm x t I J. destruct fields_flat as (l & E & _ & _ & N1 & N2). assert (K : In (camel nm) (map key l)) by (subst stay; rewrite <- map_map; now apply in_map).
  split.
  - intros X. apply (nodup_apart _ _ _ _ N2 K). rewrite X. apply (in_map key _ (x, TStruct (sname t))). exact (in_map (fun xt => (fst xt, TStruct (sname (snd xt)))) _ _ J).
  - intros X. apply (nodup_apart _ _ _ _ N1 K). eapply in_group; eauto.
Qed.
Lemma group_names : NoDup (map (fun xt : string * struct => camel (fst xt)) groups).
Proof. destruct fields_flat as (l & _ & _ & _ & _ & N2). apply nodup_right in N2. unfold groupMembers in N2. rewrite map_map in N2. exact N2. Qed.
Lemma same_name : forall x t x' t', In (x, t) groups -> In (x', t') groups -> camel x = camel x' -> (x, t) = (x', t').
Proof.
  intros x t x' t' I J E. pose proof group_names as ND. revert I J ND. clear - E. induction groups as [|[y u] g IH]; intros I J ND; [destruct I|]. cbn [map fst] in ND. inversion ND as [|? ? N1 N2]; subst.
  destruct I as [I|I], J as [J|J]; auto; [congruence| |].
  - injection I as -> ->. exfalso. apply N1. rewrite E. exact (in_map (fun xt => camel (fst xt)) _ _ J).
  - injection J as -> ->. exfalso. apply N1. rewrite <- E. exact (in_map (fun xt => camel (fst xt)) _ _ I).
Qed.
Lemma apart2 : forall x t x' t', In (x, t) groups -> In (x', t') groups -> x <> x' -> camel x <> camel x' /\
  forall y, In y (map camel (namesIn (members_of t))) -> ~ In y (map camel (namesIn (members_of t'))).
Proof.
  intros x t x' t' I J NE. split.
  - intros E. pose proof (same_name _ _ _ _ I J E). congruence.
  - destruct fields_flat as (l & _ & _ & _ & N1 & _). apply nodup_right in N1. intros y Y.
    assert (F : map key (groupFields groups) = flat_map (fun xt : string * struct => map camel (namesIn (members_of (snd xt)))) groups).
    { unfold groupFields. clear. induction groups as [|[a b] g IH]; auto. cbn [flat_map snd]. rewrite map_app, IH. f_equal. unfold namesIn, fieldsOf. now rewrite map_map. }
    rewrite F in N1. apply (flat_apart _ _ (fun xt : string * struct => map camel (namesIn (members_of (snd xt)))) groups N1 (x, t) (x', t')); auto. congruence.
Qed.
Lemma apart3 : forall x t t', In (x, t) groups -> In (x, t') groups -> t = t'.
Proof. intros x t t' I J. pose proof (same_name _ _ _ _ I J eq_refl). congruence. Qed.

Lemma start : regrouped camel cv stay groups (blank camel cv s) (blank camel cv s') /\ forall x t, In (x, t) groups -> unset camel cv x t (blank camel cv s) (blank camel cv s').
Proof.
  destruct fields_flat as (l & E & P1 & P2 & _ & _).
  assert (ND : NoDup (map key (fieldsOf (members_of s)))) by (eapply struct_nodup; eauto; now apply (defines_in fs)).
  assert (ND' : NoDup (map key (fieldsOf (members_of s')))) by (eapply struct_nodup; eauto; now apply (defines_in fs)).
  assert (U : forall x t, In (x, t) groups -> unset camel cv x t (blank camel cv s) (blank camel cv s')).
  { intros x t I. split.
    - apply (blank_found camel r _ ND' x (TStruct (sname t))). apply (Permutation_in _ (Permutation_sym P2)). apply in_app_iff. right.
      exact (in_map (fun xt => (fst xt, TStruct (sname (snd xt)))) _ _ I).
    - intros nm ty J. apply (blank_found camel r _ ND nm ty). apply (Permutation_in _ (Permutation_sym P1)). apply in_app_iff. right. apply in_flat_map. exists (x, t). auto. }
  split; auto. split; [|auto]. intros nm I. subst stay. apply in_map_iff in I as ([nm' ty] & X & I). cbn in X. subst nm'.
  unfold blank. fold (fieldsOf (members_of s)). fold (fieldsOf (members_of s')). rewrite (blank_found camel r _ ND nm ty), (blank_found camel r _ ND' nm ty); auto.
  - apply (Permutation_in _ (Permutation_sym P2)). apply in_app_iff. auto.
  - apply (Permutation_in _ (Permutation_sym P1)). apply in_app_iff. auto.
Qed.
Lemma step_both : forall dir n, rel dir (fun a a' => regrouped camel cv stay groups a a') (dec (S n)) (dec' (S (if dir then S n else n))).
Proof.
  intros dir n. cbn [decStruct]. destruct start as [R U].
  eapply rel_weak; [|apply (proj1 (sim_all camel r dir n _ eq_refl (contextsOf s args) data (scontexts s)
    ltac:(intros x I; unfold contextsOf; destruct (args_typed camel os fs r p PK s args VA x I) as (v & E & _); rewrite E; discriminate)
    stay groups group_struct apart1 apart2 apart3) stay groups (members_of s) (members_of s') RG [])].
  - intros a a' Q. apply Q.
  - intros y; auto.
  - intros y; auto.
  - pose proof group_names as ND. rewrite <- (map_map fst camel) in ND. apply NoDup_map_inv in ND. exact ND.
  - rewrite <- EC. apply (checked_members camel r). eapply pk_check; eauto. now apply (defines_in fs).
  - intros y [].
  - exact R.
  - exact U.
Qed.

Lemma flat_grouped : forall n o, dec n = o -> o <> OutOfFuel ->
  match o with Ok (a, c) => exists a' n', dec' n' = Ok (a', c) /\ regrouped camel cv stay groups a a' | Err e => exists n', dec' n' = Err e | Panic m => exists n', dec' n' = Panic m | OutOfFuel => True end.
Proof.
  intros [|n] o E N; [destruct N; auto|]. pose proof (step_both true n) as R. rewrite E in R. unfold rel in R.
  destruct o as [[a c]|e|m|], (dec' (S (S n))) as [[a' c']|e'|m'|] eqn:E'; try contradiction; try discriminate; auto.
  - destruct R as [-> R]. eauto.
  - subst e'. eauto.
  - subst m'. eauto.
Qed.
Lemma grouped_flat : forall n o, dec' n = o -> o <> OutOfFuel ->
  match o with Ok (a', c) => exists a n', dec n' = Ok (a, c) /\ regrouped camel cv stay groups a a' | Err e => exists n', dec n' = Err e | Panic m => exists n', dec n' = Panic m | OutOfFuel => True end.
Proof.
  intros [|n] o E N; [destruct N; auto|]. pose proof (step_both false n) as R. cbn [negb] in R. rewrite E in R. unfold rel in R.
  destruct o as [[a c]|e|m|], (dec (S n)) as [[a' c']|e'|m'|] eqn:E'; try contradiction; try discriminate; auto; try (destruct R; discriminate).
  - destruct R as [-> R]. eauto.
  - subst e'. eauto.
  - subst m'. eauto.
Qed.
Lemma dec_grouped : forall n, decStruct camel r n s' (blank camel cv s') (contextsOf s' args) data = dec' n.
Proof. intros n. now rewrite contexts_same. Qed.
End Pack.

(** C84. Members may be moved into structs of their own: if [s'] is [s] with stretches
    of members replaced by members of structs that consist of them, then the parsers of
    both accept the same data, use up the same part of it, find the same contents and
    report the same errors. *)
Theorem C84_regrouped : forall camel os fs r p, package camel os fs r p ->
  forall stay groups s s', defines fs s -> defines fs s' -> (forall x t, In (x, t) groups -> defines fs t) ->
  scontexts s' = scontexts s -> regroup stay groups (members_of s) (members_of s') ->
  forall data args, ctxValues camel r s args -> goBytes data ->
  let new := blank camel (Constant r) s in let new' := blank camel (Constant r) s' in
  (forall fs1 rest, parses camel p s new data args fs1 rest ->
     exists fs1', parses camel p s' new' data args fs1' rest /\ regrouped camel (Constant r) stay groups fs1 fs1') /\
  (forall fs1' rest, parses camel p s' new' data args fs1' rest ->
     exists fs1, parses camel p s new data args fs1 rest /\ regrouped camel (Constant r) stay groups fs1 fs1') /\
  (forall e, fails camel p s new data args e <-> fails camel p s' new' data args e) /\
  (forall m, panics camel p s new data args m <-> panics camel p s' new' data args m) /\
  (neverEnds camel p s new data args <-> neverEnds camel p s' new' data args).
Proof.
  intros camel os fs r p PK stay groups s s' DS DS' DG EC RG data args VA VD new new'. subst new new'.
  pose proof (call_flat camel os fs r p PK s DS data args VA VD) as VC. pose proof (call_grouped camel os fs r p PK s s' DS' EC data args VA VD) as VC'.
  pose proof (flat_grouped camel os fs r p PK stay groups s s' DS DS' DG EC RG data args VA) as FG.
  pose proof (grouped_flat camel os fs r p PK stay groups s s' DS DS' DG EC RG data args VA) as GF.
  pose proof (dec_grouped camel r s s' EC data args) as DE.
  split; [|split; [|split; [|split]]].
  - intros fs1 rest H. apply (parses_dec camel os fs r p PK _ _ _ _ VC) in H as [n H]. destruct (FG n _ H ltac:(discriminate)) as (a' & n' & E & R).
    exists a'. split; auto. apply (parses_dec camel os fs r p PK _ _ _ _ VC'). exists n'. rewrite DE. exact E.
  - intros fs1' rest H. apply (parses_dec camel os fs r p PK _ _ _ _ VC') in H as [n H]. rewrite DE in H. destruct (GF n _ H ltac:(discriminate)) as (a & n' & E & R).
    exists a. split; auto. apply (parses_dec camel os fs r p PK _ _ _ _ VC). exists n'. exact E.
  - intros e. rewrite (fails_dec camel os fs r p PK _ _ _ _ VC), (fails_dec camel os fs r p PK _ _ _ _ VC'). split; intros [n H].
    + destruct (FG n _ H ltac:(discriminate)) as [n' E]. exists n'. rewrite DE. exact E.
    + rewrite DE in H. exact (GF n _ H ltac:(discriminate)).
  - intros m. rewrite (panics_dec camel os fs r p PK _ _ _ _ VC), (panics_dec camel os fs r p PK _ _ _ _ VC'). split; intros [n H].
    + destruct (FG n _ H ltac:(discriminate)) as [n' E]. exists n'. rewrite DE. exact E.
    + rewrite DE in H. exact (GF n _ H ltac:(discriminate)).
  - assert (X : neverEnds camel p s (blank camel (Constant r) s) data args <-> forall n, decStruct camel r n s (blank camel (Constant r) s) (contextsOf s args) data = OutOfFuel).
    { split; intros H n; apply (run_fuel camel os fs r p PK _ _ _ _ VC); auto. }
    assert (X' : neverEnds camel p s' (blank camel (Constant r) s') data args <-> forall n, decStruct camel r n s' (blank camel (Constant r) s') (contextsOf s args) data = OutOfFuel).
    { split; intros H n; [rewrite <- DE|]; apply (run_fuel camel os fs r p PK _ _ _ _ VC'); auto. rewrite DE. auto. }
    rewrite X, X'. split; intros H n.
    + destruct (decStruct camel r n s' (blank camel (Constant r) s') (contextsOf s args) data) as [[a c]|e|m|] eqn:E; auto.
      * destruct (GF n _ E ltac:(discriminate)) as (? & n' & E' & _). rewrite H in E'. discriminate.
      * destruct (GF n _ E ltac:(discriminate)) as (n' & E'). rewrite H in E'. discriminate.
      * destruct (GF n _ E ltac:(discriminate)) as (n' & E'). rewrite H in E'. discriminate.
    + destruct (decStruct camel r n s (blank camel (Constant r) s) (contextsOf s args) data) as [[a c]|e|m|] eqn:E; auto.
      * destruct (FG n _ E ltac:(discriminate)) as (? & n' & E' & _). rewrite H in E'. discriminate.
      * destruct (FG n _ E ltac:(discriminate)) as (n' & E'). rewrite H in E'. discriminate.
      * destruct (FG n _ E ltac:(discriminate)) as (n' & E'). rewrite H in E'. discriminate.
Qed.
Print Assumptions C84_regrouped.

(** Two arrangements of one format:
    [struct flat { u8 tag; u8 n IN [1..3]; u16 a[n]; union x[tag] { 1: u8 p; u16 q; 2: nulterm w; }; u8 z; }] and
    [struct deep { u8 tag; struct arr arr; union x[tag] { 1: struct pq pq; 2: nulterm w; }; u8 z; }]
    with [struct arr { u8 n IN [1..3]; u16 a[n]; }] and [struct pq { u8 p; u16 q; }]. *)
Definition arrS : struct := mkStruct "arr" []
  (Some [MField "n" (TInt 8 (Some [mkRange (ILit 1) (Some (ILit 3))])); MField "a" (TVar (TInt 16 None) (Some (LRef (local "n"))))]).
Definition pqS : struct := mkStruct "pq" [] (Some [u8 "p"; u16 "q"]).
Definition flatS : struct := mkStruct "flat" []
  (Some ([u8 "tag"] ++ members_of arrS ++ [MUnion "x" (local "tag") None [UCase (is 1) [u8 "p"; u16 "q"]; UCase (is 2) [MField "w" TNul]]; u8 "z"])).
Definition deepS : struct := mkStruct "deep" []
  (Some [u8 "tag"; MField "arr" (TStruct "arr"); MUnion "x" (local "tag") None [UCase (is 1) [MField "pq" (TStruct "pq")]; UCase (is 2) [MField "w" TNul]]; u8 "z"]).
Definition twoWays : list struct := [arrS; pqS; flatS; deepS].
Lemma twoWays_ok : isPackage (one twoWays) = true.
Proof. vm_compute. reflexivity. Qed.
Lemma twoWays_regroup : regroup ["tag"; "w"; "z"] [("arr", arrS); ("pq", pqS)] (members_of flatS) (members_of deepS).
Proof.
  apply (Regroup_stays (u8 "tag") ["w"; "z"] [("arr", arrS); ("pq", pqS)]). apply (Regroup_group "arr" arrS); [reflexivity|].
  apply (Regroup_union "x" (local "tag") None _ _ ["w"] [("pq", pqS)] ["z"] []).
  - apply (RegroupC_cons (is 1) _ _ _ _ [] [("pq", pqS)] ["w"] []).
    + apply (Regroup_group "pq" pqS [] [] [] []); [reflexivity|constructor].
    + apply (RegroupC_cons (is 2) _ _ _ _ ["w"] [] [] []); [|constructor]. apply (Regroup_stays (MField "w" TNul) [] [] [] []). constructor.
  - apply (Regroup_stays (u8 "z") [] [] [] []). constructor.
Qed.
Lemma twoWays_in : forall s, In s twoWays -> defines (one twoWays) s.
Proof. intros s H. split; [cbn in H; intuition (subst; reflexivity)|]. exists (mkFile [] [] twoWays []). split; [now left|exact H]. Qed.
(** The theorem applies, to data that is accepted and to data that is not. *)
Example C84_case : exists fs1 fs1',
  parses camelX (theProg (one twoWays)) flatS (blank camelX (Constant (theRes (one twoWays))) flatS) [1; 2; 0; 7; 1; 0; 5; 0; 6; 8; 9] [] fs1 [9] /\
  parses camelX (theProg (one twoWays)) deepS (blank camelX (Constant (theRes (one twoWays))) deepS) [1; 2; 0; 7; 1; 0; 5; 0; 6; 8; 9] [] fs1' [9] /\
  regrouped camelX (Constant (theRes (one twoWays))) ["tag"; "w"; "z"] [("arr", arrS); ("pq", pqS)] fs1 fs1' /\
  alookup "A" fs1 = Some (VList [VInt 7; VInt 256]) /\ alookup "Arr" fs1' = Some (VStruct "Arr" [("N", VInt 2); ("A", VList [VInt 7; VInt 256])]) /\
  fails camelX (theProg (one twoWays)) deepS (blank camelX (Constant (theRes (one twoWays))) deepS) [1; 4; 0; 7] [] "integer constraint violated".
Proof.
  assert (GB : goBytes [1; 2; 0; 7; 1; 0; 5; 0; 6; 8; 9]) by (apply bytes_ok; vm_compute; reflexivity). assert (GB2 : goBytes [1; 4; 0; 7]) by (apply bytes_ok; vm_compute; reflexivity).
  pose proof (fresh_call twoWays flatS _ twoWays_ok ltac:(cbn; auto) eq_refl eq_refl GB) as VC.
  pose proof (fresh_call twoWays deepS _ twoWays_ok ltac:(cbn; auto) eq_refl eq_refl GB) as VD.
  pose proof (fresh_call twoWays flatS _ twoWays_ok ltac:(cbn; auto) eq_refl eq_refl GB2) as VC2.
  assert (P : exists fs1, parses camelX (theProg (one twoWays)) flatS (blank camelX (Constant (theRes (one twoWays))) flatS) [1; 2; 0; 7; 1; 0; 5; 0; 6; 8; 9] [] fs1 [9] /\
              alookup "A" fs1 = Some (VList [VInt 7; VInt 256])).
  { eexists. split; [apply (parses_dec camelX osX _ _ _ (package_of _ twoWays_ok) _ _ _ _ VC); exists 6%nat; vm_compute; reflexivity|vm_compute; reflexivity]. }
  destruct P as (fs1 & P & A1).
  assert (G : forall x t, In (x, t) [("arr", arrS); ("pq", pqS)] -> defines (one twoWays) t).
  { intros x t [E|[E|[]]]; injection E as <- <-; apply twoWays_in; cbn; auto. }
  pose proof (C84_regrouped camelX osX _ _ _ (package_of _ twoWays_ok) _ _ flatS deepS (twoWays_in flatS ltac:(cbn; auto)) (twoWays_in deepS ltac:(cbn; auto)) G eq_refl twoWays_regroup) as T.
  destruct (T _ [] (vc_args _ _ _ _ _ _ _ VC) GB) as (T1 & _). destruct (T1 _ _ P) as (fs1' & P' & R).
  exists fs1, fs1'. split; auto. split; auto. split; auto. split; auto. split.
  - assert (Q : exists fs2, parses camelX (theProg (one twoWays)) deepS (blank camelX (Constant (theRes (one twoWays))) deepS) [1; 2; 0; 7; 1; 0; 5; 0; 6; 8; 9] [] fs2 [9] /\
              alookup "Arr" fs2 = Some (VStruct "Arr" [("N", VInt 2); ("A", VList [VInt 7; VInt 256])])).
    { eexists. split; [apply (parses_dec camelX osX _ _ _ (package_of _ twoWays_ok) _ _ _ _ VD); exists 6%nat; vm_compute; reflexivity|vm_compute; reflexivity]. }
    destruct Q as (fs2 & Q & A2). destruct (parses_fun camelX osX _ _ _ (package_of _ twoWays_ok) _ _ _ _ VD _ _ _ _ P' Q) as [-> _]. exact A2.
  - destruct (T _ [] (vc_args _ _ _ _ _ _ _ VC2) GB2) as (_ & _ & F & _). apply F.
    apply (fails_dec camelX osX _ _ _ (package_of _ twoWays_ok) _ _ _ _ VC2). exists 6%nat. vm_compute. reflexivity.
Qed.
(** Positions count from the start of the struct they are in, so they change:
    [struct in { @ptr p; }  struct flat { u8 a; @ptr p; }  struct deep { u8 a; struct in in; }]. *)
Definition inP : struct := mkStruct "in" [] (Some [MField "p" TPtr]).
Definition flatP : struct := mkStruct "flat" [] (Some (u8 "a" :: members_of inP)).
Definition deepP : struct := mkStruct "deep" [] (Some [u8 "a"; MField "in" (TStruct "in")]).
Theorem C84_positions_refuted : exists ss t s s' data fs1 fs1' rest,
  isPackage (one ss) = true /\ In t ss /\ In s ss /\ In s' ss /\
  members_of s = u8 "a" :: members_of t /\ members_of s' = [u8 "a"; MField "in" (TStruct (sname t))] /\
  validCall camelX (one ss) (theRes (one ss)) s (blank camelX (Constant (theRes (one ss))) s) data [] /\
  validCall camelX (one ss) (theRes (one ss)) s' (blank camelX (Constant (theRes (one ss))) s') data [] /\
  parses camelX (theProg (one ss)) s (blank camelX (Constant (theRes (one ss))) s) data [] fs1 rest /\
  parses camelX (theProg (one ss)) s' (blank camelX (Constant (theRes (one ss))) s') data [] fs1' rest /\
  ~ regrouped camelX (Constant (theRes (one ss))) ["a"] [("in", t)] fs1 fs1'.
Proof.
  assert (P : isPackage (one [inP; flatP; deepP]) = true) by (vm_compute; reflexivity). assert (GB : goBytes [7; 8]) by (apply bytes_ok; vm_compute; reflexivity).
  pose proof (fresh_call [inP; flatP; deepP] flatP _ P ltac:(cbn; auto) eq_refl eq_refl GB) as VC.
  pose proof (fresh_call [inP; flatP; deepP] deepP _ P ltac:(cbn; auto) eq_refl eq_refl GB) as VC'.
  exists [inP; flatP; deepP], inP, flatP, deepP, [7; 8], [("A", VInt 7); ("P", VInt 1)], [("A", VInt 7); ("In", VStruct "In" [("P", VInt 0)])], [8].
  split; auto. split; [cbn; auto|]. split; [cbn; auto|]. split; [cbn; auto|]. split; [reflexivity|]. split; [reflexivity|]. split; auto. split; auto. split; [|split].
  - apply (parses_dec camelX osX _ _ _ (package_of _ P) _ _ _ _ VC). exists 4%nat. vm_compute. reflexivity.
  - apply (parses_dec camelX osX _ _ _ (package_of _ P) _ _ _ _ VC'). exists 4%nat. vm_compute. reflexivity.
  - intros [_ H]. destruct (H "in" inP (or_introl eq_refl)) as [[U _]|(b & E & _ & F)]; [discriminate U|].
    assert (E' : Some (VStruct "In" [("P", VInt 0)]) = Some (VStruct "In" b)) by exact E. injection E' as <-.
    specialize (F "p" (or_introl eq_refl)). discriminate F.
Qed.
Print Assumptions C84_positions_refuted.
