(** How calls end on the machine with memory: the ones that never end, and all
    others. *)
From Coq Require Import ZArith String List Bool Lia ZifyBool ZifyNat Permutation.
From Verif Require Import Base Ast IntervalsModel InspectModel InspectSpec InspectProofs GoLang GenModel GenCheck WireSpec GenDecode GenSim GenSimBody GenSafe GenTerm GenSimProg CompileProg WireProofs
  PackageSpec PackageProofs PackageFacts GoMem MemSim MemPath MemExec MemStep MemCall MemGen MemMono MemSpec MemTop MemBad.
Import ListNotations.
Open Scope string_scope.
Open Scope list_scope.
Open Scope Z_scope.

Section Ends.
Variable camel : string -> string.
Variable os : nat -> orders.
Variable fs : list file.
Variable r : resolver.
Variable p : program.
Hypothesis PK : package camel os fs r p.
Variable pl : platform.
Hypothesis WIDE : word pl = 8.
Notation T s := (camel (sname s)).
Notation names_apart := (names_apart camel os fs r p PK).

Theorem mem_bad : forall n s H l hfs hd data hargs args recv' res, validCall camel fs r s (shallowFields hfs) data args ->
  memCall camel H s l hfs hd data hargs args ->
  runParse camel p n s (shallowFields hfs) data args = (recv', res) -> bad res ->
  exists H', hcallMethod pl p n H (HPtr l) hd hargs = (H', badH res).
Proof.
  intros n s H l hfs hd data hargs args recv' res [D CV GS GB] [MR MD MA] RUN BAD. apply defines_in in D.
  assert (LB : (l < List.length H)%nat) by (apply nth_error_Some; congruence).
  assert (SA : Forall2 (@shr (oldOf hfs hd) (readOnly hd data hargs) H) args hargs).
  { apply args_shr; auto. intros k I. now right. }
  destruct (@call_bad (oldOf hfs hd) p (readOnly hd data hargs) pl WIDE (package_ok _ _ _ _ _ PK) n H (VStruct (T s) (shallowFields hfs)) (VBytes data) args
    (HPtr l) hd hargs [l] recv' res) as (H' & E); auto.
  - eapply own_struct; eauto.
    + unfold shallowFields. rewrite map_map. reflexivity.
    + apply shallows_own. intros x I. now right.
  - constructor; [intros []|constructor].
  - intros k0 [<-|[]] [(ND & o & k & c & E)|I].
    + destruct MD as (b & o' & c' & E' & _ & [Z|(cells & N & _)]); [congruence|]. rewrite E in E'. inversion E'; subst. congruence.
    + unfold ctxValues in CV. revert I MA CV. clear - MR D PK. generalize (scontexts s) as xs. revert args.
      induction hargs as [|a hargs IH]; intros args xs I MA CV; [destruct I|].
      inversion MA as [|? v0 ? args0 M1 M2]; subst. inversion CV as [|x0 ? xs0 ? C1 C2]; subst. destruct I as [->|I]; [|eauto].
      destruct M1 as (k & ty & hf & cf & E & E' & N & _). injection E as <-. destruct C1 as (c & HC & cf' & EQ & _). subst. injection EQ as -> _.
      rewrite MR in N. injection N as N _. eapply names_apart; eauto.
  - intros k [(ND & o & m & c & E)|I].
    + destruct MD as (b & o' & c' & E' & _ & [Z|(cells & N & _)]); [congruence|]. rewrite E in E'. inversion E'; subst. apply nth_error_Some. congruence.
    + clear - MA I. induction MA; [destruct I|]. destruct I as [->|I]; auto. destruct H0 as (k' & ty & hf & cf & E & _ & N & _). injection E as <-.
      apply nth_error_Some. congruence.
  - destruct MD as (b & o & c & -> & L & Z). econstructor; eauto. destruct Z as [->|(cells & N & F)]; [now left|].
    destruct data as [|z data]; [now left|]. right. split; [|eauto]. split.
    + left. split; [discriminate|eauto].
    + exists o, (List.length (z :: data)), c. split; auto.
  - intros f Lf. destruct (program_struct camel r fs p (pk_gen _ _ _ _ _ PK) (pk_checked _ _ _ _ _ PK) s D) as (ds & f' & ct & _ & Hf & _ & _ & Lf' & _).
    rewrite Lf in Lf'. injection Lf' as <-. rewrite (parse_params _ _ _ _ Hf). eapply args_len. eauto.
  - eauto.
Qed.

Theorem mem_never : forall s H l hfs hd data hargs args, validCall camel fs r s (shallowFields hfs) data args ->
  memCall camel H s l hfs hd data hargs args -> neverEnds camel p s (shallowFields hfs) data args ->
  forall n, snd (hcallMethod pl p n H (HPtr l) hd hargs) = HFuel.
Proof.
  intros s H l hfs hd data hargs args VC MC NE n. specialize (NE n). destruct (runParse camel p n s (shallowFields hfs) data args) as [recv' res] eqn:R.
  cbn [snd] in NE. subst res. destruct (mem_bad n s H l hfs hd data hargs args _ _ VC MC R Logic.I) as (H' & E). now rewrite E.
Qed.
Theorem mem_too_long : forall s H l hfs hd data hargs args, validCall camel fs r s (shallowFields hfs) data args ->
  memCall camel H s l hfs hd data hargs args -> panics camel p s (shallowFields hfs) data args tooLong ->
  exists H', memEnds pl p H l hd hargs H' (HPanic tooLong).
Proof.
  intros s H l hfs hd data hargs args VC MC [n0 P]. specialize (P n0 (le_n _)). destruct (runParse camel p n0 s (shallowFields hfs) data args) as [recv' res] eqn:R.
  cbn [snd] in P. subst res. destruct (mem_bad n0 s H l hfs hd data hargs args _ _ VC MC R eq_refl) as (H' & E). exists H'.
  eapply ends_once; eauto. discriminate.
Qed.

(** Whatever the bound, the machines have both ended or both not. *)
Theorem mem_ends : forall s H l hfs hd data hargs args, validCall camel fs r s (shallowFields hfs) data args ->
  memCall camel H s l hfs hd data hargs args -> narrowFiles fs r ->
  forall n, snd (hcallMethod pl p n H (HPtr l) hd hargs) = HFuel <-> snd (runParse camel p n s (shallowFields hfs) data args) = SFuel.
Proof.
  intros s H l hfs hd data hargs args VC MC NF n.
  pose proof (vc_run camel os fs r p PK s _ data args VC n) as E. pose proof (never_panics camel os fs r p PK s _ data args VC NF n) as NP.
  destruct (runParse camel p n s (shallowFields hfs) data args) as [recv' res] eqn:R. cbn [snd] in *. split.
  - intros F. destruct res as [|v w|m|]; auto.
    + destruct (decStruct camel r n s (shallowFields hfs) (contextsOf s args) data) as [[fs' c']|m'|m'|]; cbn in E; [|destruct E as [v E]..]; discriminate.
    + destruct (mem_call camel os fs r p PK pl WIDE n s H l hfs hd data hargs args _ _ _ VC MC R) as (H' & hv & hw & fp & E' & _). rewrite E' in F. discriminate.
    + contradiction (NP m eq_refl).
  - intros ->. destruct (mem_bad n s H l hfs hd data hargs args _ _ VC MC R Logic.I) as (H' & E'). now rewrite E'.
Qed.
Theorem mem_only : forall s H l hfs hd data hargs args, validCall camel fs r s (shallowFields hfs) data args ->
  memCall camel H s l hfs hd data hargs args -> narrowFiles fs r ->
  forall H' res, memEnds pl p H l hd hargs H' res -> res <> HFuel ->
  (exists fs1 rest hv, parses camel p s (shallowFields hfs) data args fs1 rest /\ res = HRet hv HNil) \/
  (exists e, fails camel p s (shallowFields hfs) data args e /\ res = HRet HNil (HErr e)).
Proof.
  intros s H l hfs hd data hargs args VC MC NF H' res [n0 K] NR.
  destruct (decStruct camel r n0 s (shallowFields hfs) (contextsOf s args) data) as [[fs1 rest]|e|m|] eqn:D.
  - assert (P : parses camel p s (shallowFields hfs) data args fs1 rest) by (apply (parses_dec camel os fs r p PK s _ data args VC); eauto).
    left. destruct (mem_parses camel os fs r p PK pl WIDE s H l hfs hd data hargs args fs1 rest VC MC P) as (H2 & hv & hfs1 & [n1 E] & _).
    specialize (K (Nat.max n0 n1) (Nat.le_max_l _ _)). specialize (E (Nat.max n0 n1) (Nat.le_max_r _ _)). rewrite K in E. injection E as -> ->. eauto.
  - assert (P : fails camel p s (shallowFields hfs) data args e) by (apply (fails_dec camel os fs r p PK s _ data args VC); eauto).
    right. destruct (mem_fails camel os fs r p PK pl WIDE s H l hfs hd data hargs args e VC MC P) as (H2 & [n1 E] & _).
    specialize (K (Nat.max n0 n1) (Nat.le_max_l _ _)). specialize (E (Nat.max n0 n1) (Nat.le_max_r _ _)). rewrite K in E. injection E as -> ->. eauto.
  - exfalso. apply (never_panics camel os fs r p PK s _ data args VC NF n0 m). apply (run_panic camel os fs r p PK s _ data args VC). exact D.
  - exfalso. apply NR. apply (run_fuel camel os fs r p PK s _ data args VC) in D. apply (mem_ends s H l hfs hd data hargs args VC MC NF) in D.
    now rewrite (K n0 (le_n _)) in D.
Qed.
End Ends.
