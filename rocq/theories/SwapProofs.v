(** Two structs that differ in some members in a row, to which the other members do not refer: if
    the decoder does the like for these, then it does for the structs. *)
From Coq Require Import ZArith String List Bool Lia ZifyBool ZifyNat.
From Verif Require Import Base Ast IntervalsModel InspectModel InspectSpec InspectProofs GoLang GenModel GenDecode GenCheck GenSim GenSimBody GenSimProg GenMono WireSpec WireProofs WireComplete WireFacts GenTerm FwdProofs
  PackageSpec PackageProofs PackageFacts PackageMore IndepSpec UnrollProofs P_Unroll.
Import ListNotations.
Open Scope string_scope.
Open Scope list_scope.
Open Scope Z_scope.

Section Pack.
Variable camel : string -> string.
Variable os : nat -> orders.
Variable fs : list file.
Variable r : resolver.
Variable p : program.
Hypothesis PK : package camel os fs r p.
Variables s s' : struct.
Variables ms1 mid mid' ms2 : list member.
Hypothesis DS : defines fs s.
Hypothesis DS' : defines fs s'.
Hypothesis EC : scontexts s' = scontexts s.
Hypothesis EM : members_of s = ms1 ++ mid ++ ms2.
Hypothesis EM' : members_of s' = ms1 ++ mid' ++ ms2.
Notation cv := (Constant r).
Notation key := (fun f : string * type => camel (fst f)).
Notation A := (flat_map allFields ms1).
Notation B := (flat_map allFields ms2).
Notation M := (flat_map allFields mid).
Notation M' := (flat_map allFields mid').
Hypothesis OUT : forall m f, In m ms1 \/ In m ms2 -> In f (usesOf m) -> rscope f = "" -> exists t, In (rname f, t) (A ++ B).
Definition Xs (g : string) : Prop := In g (map key M) \/ In g (map key M').
(** What is said of the fields in question. *)
Variable Q : amap value -> amap value -> Prop.
Hypothesis QX : forall a a' b b', (forall g, Xs g -> alookup g b = alookup g a /\ alookup g b' = alookup g a') -> Q a a' -> Q b b'.
Variable N : nat.
Variable data : bytes.
Variable args : list value.
Hypothesis VA : ctxValues camel r s args.
Hypothesis VD : goBytes data.
Definition alike (o o' : outcome (amap value * bytes)) : Prop :=
  match o, o' with
  | Ok (a, c), Ok (a', c') => c = c' /\ agreeX Xs a a' /\ Q a a'
  | Err e, Err e' => e = e'
  | Panic e, Panic e' => e = e'
  | OutOfFuel, OutOfFuel => True
  | _, _ => False
  end.
Hypothesis MID : forall n a a' c, (N <= n)%nat -> all_bytes c -> agreeX Xs a a' -> (forall g, In g (map key M) -> alookup g a <> None) -> (forall g, In g (map key M') -> alookup g a' <> None) ->
  alike (decMembers camel r (decCall camel r n) n (contextsOf s args) (blen data) mid a c) (decMembers camel r (decCall camel r n) n (contextsOf s args) (blen data) mid' a' c).

Lemma sw_fields : flat_map allFields (members_of s) = A ++ M ++ B.
Proof. now rewrite EM, !flat_map_app. Qed.
Lemma sw_fields' : flat_map allFields (members_of s') = A ++ M' ++ B.
Proof. now rewrite EM', !flat_map_app. Qed.
Lemma sw_apart : forall g, In g (map key (A ++ B)) -> ~ Xs g.
Proof.
  assert (D : forall (a m b : list (string * type)) g, NoDup (map key (a ++ m ++ b)) -> In g (map key (a ++ b)) -> In g (map key m) -> False).
  { intros a m b g N0 I J. rewrite !map_app in N0. rewrite map_app in I. apply in_app_or in I as [I|I].
    - apply (NoDup_app_disj _ _ g N0 I). apply in_or_app. auto.
    - apply NoDup_app_r in N0. apply (NoDup_app_disj _ _ g N0 J I). }
  intros g I [J|J].
  - apply (D A M B g); auto. rewrite <- sw_fields. eapply struct_nodup; eauto. now apply (defines_in fs).
  - apply (D A M' B g); auto. rewrite <- sw_fields'. eapply struct_nodup; eauto. now apply (defines_in fs).
Qed.
Lemma sw_free : forall m, In m ms1 \/ In m ms2 -> free camel Xs m.
Proof.
  intros m I. split.
  - intros x t J. apply sw_apart. apply (in_map key _ (x, t)). apply in_or_app. destruct I as [I|I]; [left|right]; apply in_flat_map; eauto.
  - intros f J E. destruct (OUT m f I J E) as [t K]. apply sw_apart. exact (in_map key _ _ K).
Qed.
Notation new := (blank camel cv s).
Notation new' := (blank camel cv s').
Lemma sw_start : agreeX Xs new new'.
Proof.
  intros g NX. unfold blank. rewrite sw_fields, sw_fields'. rewrite !map_app, !look_app.
  rewrite (look_none g (map _ M)), (look_none g (map _ M')); auto; rewrite map_map; cbn [fst]; intros I; apply NX; [now right|now left].
Qed.
Lemma sw_call : validCall camel fs r s new data args.
Proof. constructor; auto. eapply blank_goStruct; eauto. now apply (defines_in fs). Qed.
Lemma sw_call' : validCall camel fs r s' new' data args.
Proof. constructor; auto. - unfold ctxValues in *. now rewrite EC. - eapply blank_goStruct; eauto. now apply (defines_in fs). Qed.

(** The other fields agree, and for the ones in question [Q] holds. *)
Definition swapped (a a' : amap value) : Prop :=
  (forall x t, In (x, t) (flat_map allFields (ms1 ++ ms2)) -> alookup (camel x) a = alookup (camel x) a') /\ Q a a'.
Notation dec n := (decStruct camel r n s new (contextsOf s args) data).
Notation dec' n := (decStruct camel r n s' new' (contextsOf s' args) data).
Definition both (o o' : outcome (amap value * bytes)) : Prop :=
  match o, o' with
  | Ok (a, c), Ok (a', c') => c = c' /\ swapped a a'
  | Err e, Err e' => e = e'
  | Panic e, Panic e' => e = e'
  | OutOfFuel, OutOfFuel => True
  | _, _ => False
  end.
Lemma sw_step : forall n, (N <= n)%nat -> both (dec (S n)) (dec' (S n)).
Proof.
  intros n L. cbn [decStruct]. replace (contextsOf s' args) with (contextsOf s args) by (unfold contextsOf; now rewrite EC).
  rewrite EM, EM', !members_app. set (cenv := contextsOf s args).
  assert (F1 : Forall (free camel Xs) ms1) by (apply Forall_forall; intros m I; apply sw_free; auto).
  assert (F2 : Forall (free camel Xs) ms2) by (apply Forall_forall; intros m I; apply sw_free; auto).
  pose proof (members_like camel r Xs (decCall camel r n) n cenv data ms1 F1 new new' data sw_start) as L1.
  pose proof (tame_members camel r (decCall camel r n) (leaves_call camel r n) n cenv data ms1 new data) as TM.
  destruct (decMembers camel r (decCall camel r n) n cenv (blen data) ms1 new data) as [[a c]|e|m|], (decMembers camel r (decCall camel r n) n cenv (blen data) ms1 new' data) as [[a' c']|e'|m'|];
    cbn [like bind] in L1 |- *; try contradiction; auto.
  destruct L1 as (-> & AG & KE). rewrite !members_app.
  assert (AB : all_bytes c').
  { destruct (TM a c' eq_refl) as [(w & E) _]. destruct VD as [AD _]. rewrite E in AD. unfold all_bytes in *. now apply Forall_app in AD. }
  assert (ML : alike (decMembers camel r (decCall camel r n) n cenv (blen data) mid a c') (decMembers camel r (decCall camel r n) n cenv (blen data) mid' a' c')).
  { apply MID; auto.
    - intros g I Z0. destruct (KE g (or_introl I)) as [K _]. rewrite Z0 in K. symmetry in K. apply alookup_none_notin in K. apply K.
      unfold blank. rewrite sw_fields, map_map. cbn [fst]. rewrite !map_app. apply in_or_app. right. apply in_or_app. now left.
    - intros g I Z0. destruct (KE g (or_intror I)) as [_ K]. rewrite Z0 in K. symmetry in K. apply alookup_none_notin in K. apply K.
      unfold blank. rewrite sw_fields', map_map. cbn [fst]. rewrite !map_app. apply in_or_app. right. apply in_or_app. now left. }
  destruct (decMembers camel r (decCall camel r n) n cenv (blen data) mid a c') as [[a1 c1]|e|m|], (decMembers camel r (decCall camel r n) n cenv (blen data) mid' a' c') as [[a1' c1']|e'|m'|];
    cbn [alike bind] in ML |- *; try contradiction; auto.
  destruct ML as (-> & AG1 & Q1).
  pose proof (members_like camel r Xs (decCall camel r n) n cenv data ms2 F2 a1 a1' c1' AG1) as L2.
  destruct (decMembers camel r (decCall camel r n) n cenv (blen data) ms2 a1 c1') as [[a2 c2]|e|m|], (decMembers camel r (decCall camel r n) n cenv (blen data) ms2 a1' c1') as [[a2' c2']|e'|m'|];
    cbn [like both] in L2 |- *; try contradiction; auto.
  destruct L2 as (-> & AG2 & KE2). split; auto. split.
  - intros x t I. apply AG2. apply sw_apart. rewrite flat_map_app in I. exact (in_map key _ _ I).
  - revert Q1. apply QX. exact KE2.
Qed.

Theorem sw_same :
  (forall fs1 rest, parses camel p s new data args fs1 rest -> exists fs1', parses camel p s' new' data args fs1' rest /\ swapped fs1 fs1') /\
  (forall fs1' rest, parses camel p s' new' data args fs1' rest -> exists fs1, parses camel p s new data args fs1 rest /\ swapped fs1 fs1') /\
  (forall e, fails camel p s new data args e <-> fails camel p s' new' data args e) /\
  (forall m, panics camel p s new data args m <-> panics camel p s' new' data args m) /\
  (neverEnds camel p s new data args <-> neverEnds camel p s' new' data args).
Proof.
  pose proof sw_call as VC. pose proof sw_call' as VC'.
  set (far := fun n => S (n + N)).
  assert (FS : forall n, let o := dec n in o <> OutOfFuel -> dec (far n) = o).
  { intros n o NO. eapply dec_final with (n := n); unfold far; eauto. lia. }
  assert (FS' : forall n, let o := dec' n in o <> OutOfFuel -> dec' (far n) = o).
  { intros n o NO. eapply dec_final with (n := n); unfold far; eauto. lia. }
  assert (ST' : forall n, both (dec (far n)) (dec' (far n))) by (intros n; apply sw_step; lia).
  clearbody far. unfold both in ST'.
  split; [|split; [|split; [|split]]].
  - intros fs1 rest H. apply (parses_dec camel os fs r p PK _ _ _ _ VC) in H as [n H]. specialize (FS n). rewrite H in FS. specialize (FS ltac:(discriminate)). specialize (ST' n). rewrite FS in ST'.
    destruct (dec' (far n)) as [[a' c']| | |] eqn:E; try contradiction. destruct ST' as [<- S]. exists a'. split; auto.
    apply (parses_dec camel os fs r p PK _ _ _ _ VC'). eauto.
  - intros fs1 rest H. apply (parses_dec camel os fs r p PK _ _ _ _ VC') in H as [n H]. specialize (FS' n). rewrite H in FS'. specialize (FS' ltac:(discriminate)). specialize (ST' n). rewrite FS' in ST'.
    destruct (dec (far n)) as [[a c]| | |] eqn:E; try contradiction. destruct ST' as [-> S]. exists a. split; auto.
    apply (parses_dec camel os fs r p PK _ _ _ _ VC). eauto.
  - intros e. rewrite (fails_dec camel os fs r p PK _ _ _ _ VC), (fails_dec camel os fs r p PK _ _ _ _ VC'). split; intros [n H]; exists (far n); specialize (ST' n).
    + specialize (FS n). rewrite H in FS. rewrite (FS ltac:(discriminate)) in ST'. destruct (dec' (far n)) as [[a' c']| | |]; try contradiction. congruence.
    + specialize (FS' n). rewrite H in FS'. rewrite (FS' ltac:(discriminate)) in ST'. destruct (dec (far n)) as [[a c]| | |]; try contradiction. congruence.
  - intros e. rewrite (panics_dec camel os fs r p PK _ _ _ _ VC), (panics_dec camel os fs r p PK _ _ _ _ VC'). split; intros [n H]; exists (far n); specialize (ST' n).
    + specialize (FS n). rewrite H in FS. rewrite (FS ltac:(discriminate)) in ST'. destruct (dec' (far n)) as [[a' c']| | |]; try contradiction. congruence.
    + specialize (FS' n). rewrite H in FS'. rewrite (FS' ltac:(discriminate)) in ST'. destruct (dec (far n)) as [[a c]| | |]; try contradiction. congruence.
  - unfold neverEnds. split; intros H n.
    + apply (run_fuel camel os fs r p PK _ _ _ _ VC'). destruct (dec' n) as [q|e|m|] eqn:E; auto; exfalso;
      specialize (FS' n); rewrite E in FS'; specialize (FS' ltac:(discriminate)); specialize (ST' n); rewrite FS' in ST'; rewrite (proj1 (run_fuel camel os fs r p PK _ _ _ _ VC (far n)) (H (far n))) in ST'; auto.
    + apply (run_fuel camel os fs r p PK _ _ _ _ VC). destruct (dec n) as [q|e|m|] eqn:E; auto; exfalso;
      specialize (FS n); rewrite E in FS; specialize (FS ltac:(discriminate)); specialize (ST' n); rewrite FS in ST'; rewrite (proj1 (run_fuel camel os fs r p PK _ _ _ _ VC' (far n)) (H (far n))) in ST'; [destruct q as [a c]|..]; exact ST'.
Qed.
End Pack.
