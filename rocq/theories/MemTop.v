(** What calls of generated methods do to memory. *)
From Coq Require Import ZArith String List Bool Lia ZifyBool ZifyNat Permutation.
From Verif Require Import Base Ast IntervalsModel InspectModel InspectSpec InspectProofs GoLang GenModel GenCheck GenSim GenSimBody GenSimProg PackageSpec PackageProofs CompileProg
  WireProofs WireSpec PackageFacts GoMem MemSim MemPath MemExec MemMono MemStep MemFill MemCall MemGen MemSpec.
Import ListNotations.
Open Scope string_scope.
Open Scope list_scope.
Open Scope Z_scope.

Scheme made_mut := Minimality for made Sort Prop with madeAll_mut := Minimality for madeAll Sort Prop with madeFields_mut := Minimality for madeFields Sort Prop.
Combined Scheme made_ind3 from made_mut, madeAll_mut, madeFields_mut.

(** What was made does not depend on the objects there were before. *)
Theorem made_agree : forall n H H2 stale, (forall k, (n <= k < List.length H)%nat -> nth_error H2 k = nth_error H k) ->
  (forall hv v, made n H stale hv v -> made n H2 stale hv v) /\
  (forall hvs vs, madeAll n H stale hvs vs -> madeAll n H2 stale hvs vs) /\
  (forall hfs fs, madeFields n H stale hfs fs -> madeFields n H2 stale hfs fs).
Proof.
  intros n H H2 stale A. apply made_ind3; intros; try (constructor; auto; fail).
  - econstructor; eauto. rewrite A; auto. split; auto. apply nth_error_Some. congruence.
  - econstructor; eauto. rewrite A; auto. split; auto. apply nth_error_Some. congruence.
Qed.

(** Values with owners are made. *)
Section Own.
Context {oldI : Old}.
Variable n : nat.
Variable H : heap.
Variable stale : list hval.
Hypothesis OLD : forall hv, old hv -> hv = HNil \/ In hv stale.
Lemma made_fields : forall fs hfs, map fst fs = map fst hfs -> madeAll n H stale (map snd hfs) (map snd fs) -> madeFields n H stale hfs fs.
Proof.
  induction fs as [|[f v] fs IH]; intros [|[g hv] hfs] E M; try discriminate; [constructor|]. cbn in *. inversion E; subst. inversion M; subst.
  constructor; auto.
Qed.
Lemma own_made : (forall v hv fp, own H v hv fp -> (forall l, In l fp -> (n <= l)%nat) -> made n H stale hv v) /\
  (forall vs hvs fp, owns H vs hvs fp -> (forall l, In l fp -> (n <= l)%nat) -> madeAll n H stale hvs vs).
Proof.
  apply own_owns; intros; try (constructor; fail).
  - destruct (OLD _ H0) as [->|I]; [constructor|now constructor].
  - econstructor; eauto; [apply H4; now left|]. apply made_fields; auto. apply H3. intros l I. apply H4. now right.
  - constructor. auto.
  - econstructor; eauto; [apply H5; now left|]. apply H4. intros l0 I. apply H5. now right.
  - constructor; [apply H1|apply H3]; intros l I; apply H4, in_or_app; auto.
Qed.

(** Values with owners are trees, where nil is nil. *)
Hypothesis NIL : forall hv, old hv -> hv = HNil.
Lemma alookup_nth : forall {A} (m : amap A) f v, alookup f m = Some v -> exists k, nth_error m k = Some (f, v).
Proof.
  intros A. induction m as [|[g a] m IH]; intros f v L; [discriminate|]. cbn [alookup] in L. destruct (String.eqb_spec f g) as [->|].
  - injection L as <-. now exists 0%nat.
  - destruct (IH _ _ L) as [k K]. now exists (S k).
Qed.
Lemma own_tree : (forall v hv fp, own H v hv fp -> NoDup fp -> (forall w l, leads H hv w l -> In l fp) /\ tree H hv) /\
  (forall vs hvs fp, owns H vs hvs fp -> NoDup fp ->
     (forall i hv w l, nth_error hvs i = Some hv -> leads H hv w l -> In l fp) /\
     (forall i j hv hv' w w' l, nth_error hvs i = Some hv -> nth_error hvs j = Some hv' -> leads H hv w l -> leads H hv' w' l -> i = j /\ w = w')).
Proof.
  apply own_owns.
  - intros z _. split; [intros w l L|intros w1 w2 l L]; inversion L.
  - intros z _. split; [intros w l L|intros w1 w2 l L]; inversion L.
  - intros hv O _. apply NIL in O as ->. split; [intros w l L|intros w1 w2 l L]; inversion L.
  - intros p ty fs hfs fp E M O IH ND. inversion ND as [|? ? N1 N2]; subst. destruct (IH N2) as [I1 I2].
    assert (FLD : forall f hv, alookup f hfs = Some hv -> exists k, nth_error hfs k = Some (f, hv) /\ nth_error (map snd hfs) k = Some hv).
    { intros f hv L. destruct (alookup_nth _ _ _ L) as [k K]. exists k. split; auto. rewrite nth_error_map, K. reflexivity. }
    assert (IN : forall f hv w l, alookup f hfs = Some hv -> leads H hv w l -> In l fp).
    { intros f hv w l L LD. destruct (FLD _ _ L) as (k & _ & K). eauto. }
    split.
    + intros w l L. inversion L; subst; [now left|]. right. assert (hfs0 = hfs) by congruence. subst. eauto.
    + intros w1 w2 l L1 L2. inversion L1; subst; inversion L2; subst; auto.
      * exfalso. assert (hfs0 = hfs) by congruence. subst. apply N1. eauto.
      * exfalso. assert (hfs0 = hfs) by congruence. subst. apply N1. eauto.
      * assert (hfs0 = hfs) by congruence. assert (hfs1 = hfs) by congruence. subst.
        match goal with A : alookup f hfs = Some _, B : alookup f0 hfs = Some _, C : leads H hv w l, D : leads H hv0 w0 l |- _ =>
          destruct (FLD _ _ A) as (k1 & K1 & K1'); destruct (FLD _ _ B) as (k2 & K2 & K2'); destruct (I2 _ _ _ _ _ _ _ K1' K2' C D) as [-> ->] end. congruence.
  - intros vs hvs fp O IH ND. destruct (IH ND) as [I1 I2]. split.
    + intros w l L. inversion L; subst. eauto.
    + intros w1 w2 l L1 L2. inversion L1; subst; inversion L2; subst.
      match goal with A : nth_error _ i = Some _, B : nth_error _ i0 = Some _, C : leads H hv w l, D : leads H hv0 w0 l |- _ => destruct (I2 _ _ _ _ _ _ _ A B C D) as [-> ->] end. auto.
  - intros vs base off len cap cells fp E L1 L2 O IH ND. inversion ND as [|? ? N1 N2]; subst. destruct (IH N2) as [I1 I2]. split.
    + intros w l L. inversion L; subst; [now left|]. right. assert (cells0 = cells) by congruence. subst. eauto.
    + intros w1 w2 l K1 K2. inversion K1; subst; inversion K2; subst; auto.
      * exfalso. assert (cells0 = cells) by congruence. subst. apply N1. eauto.
      * exfalso. assert (cells0 = cells) by congruence. subst. apply N1. eauto.
      * assert (cells0 = cells) by congruence. assert (cells1 = cells) by congruence. subst.
        match goal with A : nth_error _ i = Some _, B : nth_error _ i0 = Some _, C : leads H hv w l, D : leads H hv0 w0 l |- _ => destruct (I2 _ _ _ _ _ _ _ A B C D) as [-> ->] end. auto.
  - intros _. split; intros i; [intros hv w l E|intros j hv hv' w w' l E]; destruct i; discriminate.
  - intros v hv fp vs hvs fps O1 IH1 O2 IH2 ND. apply nodup_app in ND as (ND1 & ND2 & DJ).
    destruct (IH1 ND1) as [A1 A2]. destruct (IH2 ND2) as [B1 B2]. split.
    + intros i hv0 w l E L. apply in_or_app. destruct i as [|i]; cbn in E; [injection E as <-; left; eauto|right; eauto].
    + intros i j hv1 hv2 w w' l E1 E2 L1 L2. destruct i as [|i], j as [|j]; cbn in E1, E2.
      * injection E1 as <-. injection E2 as <-. split; auto. eapply A2; eauto.
      * injection E1 as <-. exfalso. eapply DJ; eauto.
      * injection E2 as <-. exfalso. eapply DJ; eauto.
      * destruct (B2 _ _ _ _ _ _ _ E1 E2 L1 L2) as [-> ->]. auto.
Qed.
End Own.

(* ---------- the receiver before the call ---------- *)

Fixpoint hval_ind' (P : hval -> Prop) (Hi : forall z, P (HInt z)) (Hs : forall s, P (HStr s)) (Hsl : forall b o n c, P (HSlice b o n c))
    (Ha : forall l, Forall P l -> P (HArr l)) (Hp : forall p, P (HPtr p)) (Hn : P HNil) (He : forall m, P (HErr m)) (Hb : forall b, P (HBool b)) (v : hval) : P v :=
  match v with
  | HInt z => Hi z
  | HStr s => Hs s
  | HSlice b o n c => Hsl b o n c
  | HArr l => Ha l ((fix all (l : list hval) : Forall P l :=
      match l with [] => Forall_nil P | x :: l' => Forall_cons x (hval_ind' P Hi Hs Hsl Ha Hp Hn He Hb x) (all l') end) l)
  | HPtr p => Hp p
  | HNil => Hn
  | HErr m => He m
  | HBool b => Hb b
  end.

Lemma shallow_own : forall {oldI : Old} H hv, (forall x, In x (refs hv) -> old x) -> own H (shallow hv) hv [].
Proof.
  intros oldI H. induction hv as [z|s|b o n c|l IH|p| |m|b] using hval_ind'; intros O; cbn [shallow refs] in *;
    try (apply own_nil; apply O; now left); try (constructor; fail).
  constructor. induction l as [|x l IHl]; cbn [map flat_map] in *; [constructor|]. inversion IH as [|? ? I1 I2]; subst.
  change (@nil loc) with (@nil loc ++ @nil loc). constructor; [apply I1|apply IHl; auto]; intros y Y; apply O, in_or_app; auto.
Qed.
Lemma shallows_own : forall {oldI : Old} H hfs, (forall x, In x (fieldRefs hfs) -> old x) -> owns H (map snd (shallowFields hfs)) (map snd hfs) [].
Proof.
  intros oldI H. induction hfs as [|[f hv] hfs IH]; intros O; cbn [shallowFields map fst snd] in *; [constructor|].
  change (@nil loc) with (@nil loc ++ @nil loc). constructor; [apply shallow_own|apply IH]; intros y Y; apply O; unfold fieldRefs; cbn [flat_map snd]; apply in_or_app; auto.
Qed.

Lemma args_shr : forall {oldI : Old} (ro : loc -> Prop) H hargs args, Forall2 (holdsInts H) hargs args ->
  (forall k, In (HPtr k) hargs -> ro k) -> Forall2 (shr ro H) args hargs.
Proof.
  intros oldI ro H hargs args M. induction M as [|hv v hs args M MA IH]; intros X; [constructor|].
  constructor; [|apply IH; intros; apply X; now right].
  destruct M as (k & ty & hf & cf & -> & -> & E & F). econstructor; eauto.
  - apply X. now left.
  - clear - F. induction F as [|? ? ? ? (A & z & B & C)]; constructor; auto. split; auto. exists z. auto.
Qed.

Section Pack.
Variable camel : string -> string.
Variable os : nat -> orders.
Variable fs : list file.
Variable r : resolver.
Variable p : program.
Hypothesis PK : package camel os fs r p.
Variable pl : platform.
Hypothesis WIDE : word pl = 8.
Notation T s := (camel (sname s)).

Lemma names_apart : forall s x c, In s (definedStructs fs) -> Context r x = Some c -> camel (cname c) <> T s.
Proof.
  intros s x c I HC E. destruct (context_in _ _ _ _ _ PK _ _ HC) as [J _]. pose proof (pk_checked _ _ _ _ _ PK) as K. unfold checkFiles in K.
  apply andb_true_iff in K as [_ K]. apply nodupb_NoDup in K. apply nodup_app in K as (_ & _ & K).
  apply (K (T s)); [rewrite <- E; apply (in_map (fun c => camel (cname c)) _ _ J)|apply (in_map (fun s => camel (sname s)) _ _ I)].
Qed.

(** What the objects are that the call only reads. *)
Definition readOnly (hd : hval) (data : bytes) (hargs : list hval) (l : loc) : Prop :=
  (data <> [] /\ exists o n c, hd = HSlice l o n c) \/ In (HPtr l) hargs.
Definition oldOf (hfs : amap hval) (hd : hval) : Old.
Proof.
  refine (mkOld (fun hv => hv = HNil \/ In hv (fieldRefs hfs)) (or_introl eq_refl)
    (fun b i j => exists o n c, hd = HSlice b o n c /\ (o <= i)%nat /\ (j <= o + n)%nat) _).
  intros l i j i' j' (o & n & c & E & A & B) X Y Z. exists o, n, c. split; auto. split; lia.
Defined.

Theorem mem_call : forall n s H l hfs hd data hargs args recv' v w, validCall camel fs r s (shallowFields hfs) data args ->
  memCall camel H s l hfs hd data hargs args ->
  runParse camel p n s (shallowFields hfs) data args = (recv', SRet v w) ->
  exists H' hv hw fp, hcallMethod pl p n H (HPtr l) hd hargs = (H', HRet hv hw) /\ writesOnly l H H' /\
    @own (oldOf hfs hd) H' recv' (HPtr l) fp /\ NoDup fp /\ (forall k, In k fp -> k = l \/ (List.length H <= k)%nat) /\
    @shr (oldOf hfs hd) (readOnly hd data hargs) H' v hv /\ @shr (oldOf hfs hd) (readOnly hd data hargs) H' w hw.
Proof.
  intros n s H l hfs hd data hargs args recv' v w [D CV GS GB] [MR MD MA] RUN. apply defines_in in D.
  assert (LB : (l < List.length H)%nat) by (apply nth_error_Some; congruence).
  assert (SA : Forall2 (@shr (oldOf hfs hd) (readOnly hd data hargs) H) args hargs).
  { apply args_shr; auto. intros k I. now right. }
  destruct (@call_sim (oldOf hfs hd) p (readOnly hd data hargs) pl WIDE (package_ok _ _ _ _ _ PK) n H (VStruct (T s) (shallowFields hfs)) (VBytes data) args
    (HPtr l) hd hargs [l] recv' v w) as (H' & hv & hw & fp & E & O & ND & RO & X & SV & SW); auto.
  - eapply own_struct; eauto.
    + unfold shallowFields. rewrite map_map. reflexivity.
    + apply shallows_own. intros x I. now right.
  - constructor; [intros []|constructor].
  - intros k0 [<-|[]] [(ND & o & k & c & E)|I].
    + destruct MD as (b & o' & c' & E' & _ & [Z|(cells & N & _)]); [congruence|]. rewrite E in E'. inversion E'; subst. congruence.
    + unfold ctxValues in CV. revert I MA CV. clear - MR D PK. generalize (scontexts s) as xs. revert args.
      induction hargs as [|a hargs IH]; intros args xs I MA CV; [destruct I|].
      inversion MA as [|? v0 ? args0 M1 M2]; subst. inversion CV as [|x0 ? xs0 ? C1 C2]; subst. destruct I as [->|I]; [|eauto].
      destruct M1 as (k & ty & hf & cf & E & E' & N & _). injection E as <-. destruct C1 as (c & HC & cf' & EQ & _). subst. injection EQ as -> _.
      rewrite MR in N. injection N as N _. eapply names_apart; eauto.
  - intros k [(ND & o & m & c & E)|I].
    + destruct MD as (b & o' & c' & E' & _ & [Z|(cells & N & _)]); [congruence|]. rewrite E in E'. inversion E'; subst. apply nth_error_Some. congruence.
    + clear - MA I. induction MA; [destruct I|]. destruct I as [->|I]; auto. destruct H0 as (k' & ty & hf & cf & E & _ & N & _). injection E as <-.
      apply nth_error_Some. congruence.
  - destruct MD as (b & o & c & -> & L & Z). econstructor; eauto. destruct Z as [->|(cells & N & F)]; [now left|].
    destruct data as [|z data]; [now left|]. right. split; [|eauto]. split.
    + left. split; [discriminate|eauto].
    + exists o, (List.length (z :: data)), c. split; auto.
  - intros f Lf. destruct (program_struct camel r fs p (pk_gen _ _ _ _ _ PK) (pk_checked _ _ _ _ _ PK) s D) as (ds & f' & ct & _ & Hf & _ & _ & Lf' & _).
    rewrite Lf in Lf'. injection Lf' as <-. rewrite (parse_params _ _ _ _ Hf). eapply args_len. eauto.
  - exists H', hv, hw, fp. destruct X as (X1 & X2 & X3). split; auto. split; [split; auto; intros k K1 K2; apply X2; auto; intros [K|[]]; auto|].
    split; auto. split; auto. split; auto. intros k K. destruct (X3 k K) as [[<-|[]]|]; auto.
Qed.

(** The bound does not matter once the call has ended. *)
Lemma ends_once : forall n H l hd hargs H' res, hcallMethod pl p n H (HPtr l) hd hargs = (H', res) -> res <> HFuel -> memEnds pl p H l hd hargs H' res.
Proof.
  intros n H l hd hargs H' res E N. exists n. intros m L. destruct (call_later pl p n m H (HPtr l) hd hargs L) as [F|F].
  - rewrite E in F. cbn in F. contradiction.
  - congruence.
Qed.

Theorem mem_parses : forall s H l hfs hd data hargs args fs1 rest, validCall camel fs r s (shallowFields hfs) data args ->
  memCall camel H s l hfs hd data hargs args -> parses camel p s (shallowFields hfs) data args fs1 rest ->
  exists H' hv hfs1, memEnds pl p H l hd hargs H' (HRet hv HNil) /\ writesOnly l H H' /\
    holdsBytes H' hv rest /\ (rest = [] \/ within hv hd) /\
    nth_error H' l = Some (OStruct (T s) hfs1) /\ madeFields (List.length H) H' (fieldRefs hfs) hfs1 fs1 /\
    ((forall x, In x (fieldRefs hfs) -> x = HNil) -> tree H' (HPtr l)).
Proof.
  intros s H l hfs hd data hargs args fs1 rest VC MC [n0 P].
  destruct (mem_call n0 s H l hfs hd data hargs args _ _ _ VC MC (P n0 (le_n _))) as (H' & hv & hw & fp & E & WO & O & ND & FP & SV & SW).
  inversion SW; subst. exists H', hv. destruct (own_struct_inv _ _ _ _ _ O) as (k & hfs1 & fp' & EK & -> & N & NM & OS). injection EK as <-.
  exists hfs1. split; [eapply ends_once; eauto; discriminate|]. split; auto.
  inversion SV as [| | | |b base off len cap -> LC Z|]; subst.
  split; [|split; [|split; [|split]]].
  - exists base, off, cap. split; auto. split; auto. destruct Z as [Z|(_ & cells & Z1 & Z2)]; eauto.
  - destruct Z as [Z|((_ & W) & _)]; auto. right. destruct W as (o & m & c & -> & W1 & W2). cbn. auto.
  - exact N.
  - apply made_fields; auto. eapply (proj2 (own_made _ _ _ _)); eauto.
    intros k K. inversion ND as [|? ? N1 N2]; subst. destruct (FP k (or_intror K)) as [->|]; auto. contradiction.
  - intros FR. eapply (proj1 (own_tree _ _)); eauto.
  Unshelve. 1: intros x X; exact X. intros x [X|X]; auto.
Qed.

Theorem mem_fails : forall s H l hfs hd data hargs args e, validCall camel fs r s (shallowFields hfs) data args ->
  memCall camel H s l hfs hd data hargs args -> fails camel p s (shallowFields hfs) data args e ->
  exists H', memEnds pl p H l hd hargs H' (HRet HNil (HErr e)) /\ writesOnly l H H'.
Proof.
  intros s H l hfs hd data hargs args e VC MC [n0 P]. specialize (P n0 (le_n _)).
  destruct (runParse camel p n0 s (shallowFields hfs) data args) as [recv' res] eqn:R. cbn [snd] in P. subst res.
  destruct (mem_call n0 s H l hfs hd data hargs args _ _ _ VC MC R) as (H' & hv & hw & fp & E & WO & _ & _ & _ & SV & SW).
  inversion SV; subst. inversion SW; subst. exists H'. split; auto. eapply ends_once; eauto. discriminate.
Qed.

(* ---------- the constructor ---------- *)

Lemma hevals_vars : forall H e xs args, NoDup xs -> List.length args = List.length xs ->
  (forall x, In x xs -> alookup x e = alookup x (combine xs args)) -> hevals pl (ptypes p) H e (map EVar xs) = Ok (args, H).
Proof.
  intros H e xs args ND L A. assert (K : forall ys zs, (exists pre, xs = pre ++ ys) -> (forall x, In x ys -> alookup x e = alookup x (combine ys zs)) ->
    NoDup ys -> List.length zs = List.length ys -> hevals pl (ptypes p) H e (map EVar ys) = Ok (zs, H)).
  { induction ys as [|y ys IH]; intros [|z zs] X B N L'; try discriminate; [reflexivity|]. cbn [map hevals heval].
    rewrite (B y (or_introl eq_refl)). cbn [combine alookup]. rewrite String.eqb_refl. cbn [bind]. inversion N; subst. rewrite (IH zs); auto.
    - destruct X as [pre ->]. exists (pre ++ [y]). now rewrite <- app_assoc.
    - intros x I. rewrite (B x (or_intror I)). cbn [combine alookup]. destruct (String.eqb_spec x y) as [->|]; auto. contradiction. }
  apply K; auto. now exists [].
Qed.

Theorem ctor_method : forall n s H hd hargs, In s (definedStructs fs) -> List.length hargs = List.length (scontexts s) ->
  exists ds, structDecl camel r s = Ok ds /\
  hcallCtor pl p n (T s) H hd hargs =
    let '(H', res) := hcallMethod pl p n (H ++ [OStruct (T s) (hzeros ds)]) (HPtr (List.length H)) hd hargs in
    match res with
    | HRet _ HNil => (H', HRet (HPtr (List.length H)) HNil)
    | HRet _ (HErr e) => (H', HRet HNil (HErr e))
    | HRet _ (HPtr k) => (H', HRet HNil (HPtr k))
    | HRet _ (HSlice a b c d) => (H', HRet HNil (HSlice a b c d))
    | HRet _ _ => (H', HPanic "ill-typed")
    | HNext => (H', HPanic "missing return")
    | _ => (H', res)
    end.
Proof.
  intros n s H hd hargs I LA.
  destruct (program_struct camel r fs p (pk_gen _ _ _ _ _ PK) (pk_checked _ _ _ _ _ PK) s I) as (ds & f & ct & Hds & Hf & Hct & Lt & Lm & Lc).
  exists ds. split; auto. unfold hcallCtor. rewrite Lc. unfold ctorFunc in Hct. apply bind_ok in Hct as (rv & Hrv & Hct). injection Hct as <-.
  cbn [fbody fparams]. pose proof (pk_check _ _ _ _ _ PK s I) as CS. unfold checkStruct in CS. apply andb_true_iff in CS as [CS SC].
  unfold checkScope in SC. rewrite Hrv in SC.
  apply andb_true_iff in SC as [SC S4]. apply andb_true_iff in SC as [SC S3]. apply andb_true_iff in SC as [S1 S2].
  apply negb_true_iff, memb_notin in S1. apply negb_true_iff, memb_notin in S3. apply nodupb_NoDup in S4.
  pose proof (proj1 (disjointb_spec _ _) S2) as S2'.
  assert (RD : rv <> "data") by (intros ->; apply S1; cbn; auto).
  assert (RE : rv <> "err") by (intros ->; apply S1; cbn; auto).
  rewrite hexecs_cons. cbn [hexec heval]. rewrite Lt. cbn [hlift alloc]. rewrite hexecs_cons. cbn [hexec lexpr heval alookup].
  rewrite String.eqb_refl. cbn [hlift].
  destruct (String.eqb_spec "data" rv); [congruence|]. rewrite String.eqb_refl. cbn [hlift].
  rewrite (hevals_vars _ _ (scontexts s) hargs S4 LA).
  2:{ intros x Ix. cbn [alookup]. destruct (String.eqb_spec x rv) as [->|]; [tauto|].
      destruct (String.eqb_spec x "data") as [->|]; auto. exfalso. apply (S2' _ Ix). cbn; auto. }
  cbn [hlift]. destruct (hcallMethod pl p n _ _ hd hargs) as [H' [|v w|m|]]; try reflexivity.
  rewrite hexecs_cons. cbn [hexec heval alookup]. rewrite String.eqb_refl. cbn [bind hlift].
  destruct w as [z|b|b o c d|a|k| |m|b]; try reflexivity.
  cbn [hlift]. rewrite hexecs_cons. cbn [hexec heval alookup].
  destruct (String.eqb_spec rv "err"); [congruence|]. rewrite String.eqb_refl. reflexivity.
Qed.

Lemma hzero_refs : forall t x, In x (refs (hzero t)) -> x = HNil.
Proof.
  induction t; intros x I; cbn [hzero refs] in I; try (now destruct I as [<-|[]]); try contradiction.
  apply in_flat_map in I as (y & J & I). apply repeat_spec in J. subst. auto.
Qed.
Lemma hzeros_refs : forall ds x, In x (fieldRefs (hzeros ds)) -> x = HNil.
Proof.
  intros ds x I. unfold fieldRefs, hzeros in I. apply in_flat_map in I as ([f hv] & J & I). apply in_map_iff in J as ([f' t] & E & _).
  injection E as <- <-. eapply hzero_refs; eauto.
Qed.
Lemma hzero_shallow : forall t, shallow (hzero t) = zero t.
Proof.
  induction t; cbn [hzero shallow zero]; auto. f_equal. rewrite <- IHt. generalize (Z.to_nat n). intros m. induction m as [|m IH]; cbn; auto. now rewrite IH.
Qed.
Lemma hzeros_shallow : forall ds, shallowFields (hzeros ds) = zeros ds.
Proof.
  intros ds. unfold shallowFields, hzeros, zeros. rewrite map_map. apply map_ext. intros [f t]. cbn. now rewrite hzero_shallow.
Qed.
Lemma made_weaken : forall n n' H st st', (n' <= n)%nat -> (forall x, In x st -> x = HNil \/ In x st') ->
  (forall hv v, made n H st hv v -> made n' H st' hv v) /\ (forall hvs vs, madeAll n H st hvs vs -> madeAll n' H st' hvs vs) /\
  (forall hfs fs, madeFields n H st hfs fs -> madeFields n' H st' hfs fs).
Proof.
  intros n n' H st st' L S. apply made_ind3; intros; try (constructor; auto; fail).
  - destruct (S _ H0) as [->|I]; [constructor|now constructor].
  - econstructor; eauto. lia.
  - econstructor; eauto. lia.
Qed.
Lemma holdsBytes_app : forall H a hd data, holdsBytes H hd data -> holdsBytes (H ++ a) hd data.
Proof.
  intros H a hd data (b & o & c & E & L & Z). exists b, o, c. split; auto. split; auto. destruct Z as [Z|(cells & Z1 & Z2)]; auto. right. exists cells.
  split; auto. rewrite nth_error_app1; auto. apply nth_error_Some. congruence.
Qed.
Lemma holdsInts_app : forall H a hv v, holdsInts H hv v -> holdsInts (H ++ a) hv v.
Proof.
  intros H a hv v (l & ty & hf & cf & E & E' & N & F). exists l, ty, hf, cf. split; auto. split; auto. split; auto.
  rewrite nth_error_app1; auto. apply nth_error_Some. congruence.
Qed.

Lemma new_call : forall s H hd data hargs args ds, In s (definedStructs fs) -> structDecl camel r s = Ok ds ->
  holdsBytes H hd data -> Forall2 (holdsInts H) hargs args ->
  memCall camel (H ++ [OStruct (T s) (hzeros ds)]) s (List.length H) (hzeros ds) hd data hargs args /\ shallowFields (hzeros ds) = blank camel (Constant r) s.
Proof.
  intros s H hd data hargs args ds I Hds HB HA. split.
  - constructor.
    + rewrite nth_error_app2 by lia. now rewrite Nat.sub_diag.
    + now apply holdsBytes_app.
    + clear - HA. induction HA; constructor; auto. now apply holdsInts_app.
  - rewrite hzeros_shallow. now apply zeros_blank.
Qed.
Lemma Forall2_len : forall {A B} (R : A -> B -> Prop) a b, Forall2 R a b -> List.length a = List.length b.
Proof. intros A B R a b F. induction F; cbn; auto. Qed.
Lemma writes_app : forall H o H', writesOnly (List.length H) (H ++ [o]) H' -> writesNothing H H'.
Proof.
  intros H o H' [L W]. rewrite app_length in *. cbn in *. split; [lia|]. intros k K. rewrite W by lia. rewrite nth_error_app1; auto.
Qed.

Theorem mem_new : forall s H hd data hargs args fs1 rest, validCall camel fs r s (blank camel (Constant r) s) data args ->
  holdsBytes H hd data -> Forall2 (holdsInts H) hargs args -> parses camel p s (blank camel (Constant r) s) data args fs1 rest ->
  exists H', newEndsMem pl p (T s) H hd hargs H' (HRet (HPtr (List.length H)) HNil) /\ writesNothing H H' /\
    made (List.length H) H' [] (HPtr (List.length H)) (VStruct (T s) fs1) /\ tree H' (HPtr (List.length H)).
Proof.
  intros s H hd data hargs args fs1 rest VC HB HA P. pose proof (proj1 (defines_in _ _) (vc_defined _ _ _ _ _ _ _ VC)) as I.
  assert (LA : List.length hargs = List.length (scontexts s)).
  { rewrite (Forall2_len _ _ _ HA). eapply args_len. apply (vc_args _ _ _ _ _ _ _ VC). }
  destruct (ctor_method 0%nat s H hd hargs I LA) as (ds & Hds & _). destruct (new_call s H hd data hargs args ds I Hds HB HA) as [MC SH]. rewrite <- SH in VC, P.
  destruct (mem_parses _ _ _ _ _ _ _ _ _ _ VC MC P) as (H' & hv & hfs1 & [n0 E] & WO & _ & _ & N & MF & TR).
  exists H'. split; [|split; [|split]].
  - exists n0. intros n L. destruct (ctor_method n s H hd hargs I LA) as (ds' & Hds' & ->). assert (ds' = ds) by congruence. subst. now rewrite (E n L).
  - eapply writes_app; eauto.
  - econstructor; eauto. destruct (made_weaken (List.length (H ++ [OStruct (T s) (hzeros ds)])) (List.length H) H' (fieldRefs (hzeros ds)) []) as (_ & _ & K); auto.
    + rewrite app_length. lia.
    + intros x X. left. eapply hzeros_refs; eauto.
  - apply TR. intros x X. eapply hzeros_refs; eauto.
Qed.
Theorem mem_new_fails : forall s H hd data hargs args e, validCall camel fs r s (blank camel (Constant r) s) data args ->
  holdsBytes H hd data -> Forall2 (holdsInts H) hargs args -> fails camel p s (blank camel (Constant r) s) data args e ->
  exists H', newEndsMem pl p (T s) H hd hargs H' (HRet HNil (HErr e)) /\ writesNothing H H'.
Proof.
  intros s H hd data hargs args e VC HB HA P. pose proof (proj1 (defines_in _ _) (vc_defined _ _ _ _ _ _ _ VC)) as I.
  assert (LA : List.length hargs = List.length (scontexts s)).
  { rewrite (Forall2_len _ _ _ HA). eapply args_len. apply (vc_args _ _ _ _ _ _ _ VC). }
  destruct (ctor_method 0%nat s H hd hargs I LA) as (ds & Hds & _). destruct (new_call s H hd data hargs args ds I Hds HB HA) as [MC SH]. rewrite <- SH in VC, P.
  destruct (mem_fails _ _ _ _ _ _ _ _ _ VC MC P) as (H' & [n0 E] & WO).
  exists H'. split; [|eapply writes_app; eauto].
  exists n0. intros n L. destruct (ctor_method n s H hd hargs I LA) as (ds' & Hds' & ->). assert (ds' = ds) by congruence. subst. now rewrite (E n L).
Qed.
End Pack.
