(** Goroutines that are not disturbed by what others do to the rest of memory,
    and access only what is theirs or never written. *)
From Coq Require Import ZArith String List Bool Lia ZifyBool ZifyNat Permutation.
From Verif Require Import Base GoLang GoMem MemSim MemPath MemExec MemStep GoConc.
Import ListNotations.
Open Scope string_scope.
Open Scope list_scope.
Open Scope Z_scope.

Section Safe.
Variable ro : loc -> Prop.
Variable pl : platform.
Variable types : amap (list (string * gtype)).
Variable Post : list loc -> heap -> hres -> Prop.
Notation heval := (heval pl types).
Notation hstore := (hstore pl types).

(** Memory [H1] may come after [H] for a goroutine that owns [M] and did nothing. *)
Definition stable (M : list loc) (H H1 : heap) : Prop :=
  (List.length H <= List.length H1)%nat /\ forall l, In l M \/ ro l -> nth_error H1 l = nth_error H l.
Definition mayRead (M : list loc) (l : list loc) : Prop := forall x, In x l -> In x M \/ ro x.
Definition mayWrite (M : list loc) (l : list loc) : Prop := forall x, In x l -> In x M.

(** A goroutine that owned [M] in [H] owns [M2] in [H2]. *)
Definition bound (M : list loc) (H : heap) : Prop := forall l, In l M -> (l < List.length H)%nat.
Definition grows (H : heap) (M : list loc) (H2 : heap) (M2 : list loc) : Prop := ext H M H2 M2 /\ (bound M H -> bound M2 H2).
Lemma grows_refl : forall H M, grows H M H M.
Proof. intros. split; auto using ext_refl. Qed.
Lemma grows_app : forall H M a, grows H M (H ++ a) M.
Proof. intros. split; auto using ext_app. intros B l I. rewrite app_length. specialize (B _ I). clear - B. lia. Qed.
Lemma grows_weaken : forall H M M' H2 M2, incl M' M -> grows H M' H2 M2 -> grows H M H2 M2.
Proof.
  intros H M M' H2 M2 I [(X1 & X2 & X3) B]. split; [|intros BM; apply B; intros y Y; auto]. split; auto. split.
  - intros y Y NY. apply X2; auto.
  - intros y Y. destruct (X3 y Y); auto.
Qed.

(** The goroutine [t] owning [M] in memory [H] never panics, whatever the others do. *)
Fixpoint safe (t : thread) (M : list loc) (H : heap) {struct t} : Prop :=
  match t with
  | TEnd r => forall H1, stable M H H1 -> exists fp, incl fp M /\ Post fp H1 r
  | TEval e x k => forall H1, stable M H H1 ->
      mayRead M (reads pl types H1 e x) /\ mayWrite M (writes pl types H1 e x) /\
      exists v H2 M2, heval H1 e x = Ok (v, H2) /\ grows H1 M H2 M2 /\ safe (k v) M2 H2
  | TStore e l v k => forall H1, stable M H H1 ->
      mayRead M (storeReads pl types H1 e l) /\ mayWrite M (storeWrites pl types H1 e l) /\
      exists e2 H2 M2, hstore H1 e l v = Ok (H2, e2) /\ grows H1 M H2 M2 /\ safe (k e2) M2 H2
  | TType p k => forall H1, stable M H H1 -> exists ty fs, nth_error H1 p = Some (OStruct ty fs) /\ safe (k ty) M H1
  end.

Lemma stable_refl : forall M H, stable M H H.
Proof. intros. split; auto. Qed.
Lemma stable_trans : forall M H H1 H2, stable M H H1 -> stable M H1 H2 -> stable M H H2.
Proof. intros M H H1 H2 [A1 A2] [B1 B2]. split; [clear - A1 B1; lia|]. intros l I. rewrite B2, A2; auto. Qed.
Lemma stable_incl : forall M M' H H1, incl M' M -> stable M H H1 -> stable M' H H1.
Proof. intros M M' H H1 I [A1 A2]. split; auto. intros l [J|J]; apply A2; auto. Qed.
Lemma safe_stable : forall t M H H1, safe t M H -> stable M H H1 -> safe t M H1.
Proof. destruct t; intros M H H1 S ST; cbn [safe] in *; intros H2 ST2; apply S; eapply stable_trans; eauto. Qed.
Lemma safe_weaken : forall t M M' H, incl M' M -> safe t M' H -> safe t M H.
Proof.
  induction t as [r|e x k IH|e l v k IH|p k IH]; intros M M' H I S; cbn [safe] in *; intros H1 ST; apply (stable_incl _ _ _ _ I) in ST.
  - destruct (S H1 ST) as (fp & A & B). exists fp. split; auto. intros y Y. auto.
  - destruct (S H1 ST) as (A & B & v & H2 & M2 & E & X & K). split; [|split].
    + intros y Y. destruct (A y Y); auto.
    + intros y Y. auto.
    + exists v, H2, M2. split; auto. split; auto. eapply grows_weaken; eauto.
  - destruct (S H1 ST) as (A & B & e2 & H2 & M2 & E & X & K). split; [|split].
    + intros y Y. destruct (A y Y); auto.
    + intros y Y. auto.
    + exists e2, H2, M2. split; auto. split; auto. eapply grows_weaken; eauto.
  - destruct (S H1 ST) as (ty & fs & E & K). exists ty, fs. split; auto. eapply IH; eauto.
Qed.
End Safe.

Section Old.
Context {oldI : Old}.

Section Touch.
Variable ro : loc -> Prop.
Variable self : hval.
Variable pl : platform.
Hypothesis wide : word pl = 8.
Variable types : amap (list (string * gtype)).
Notation envR := (envR ro self).
Notation good := (good ro self).
Notation eval := (eval types).
Notation heval := (heval pl types).
Notation hstore := (hstore pl types).
Notation reads := (reads pl types).
Notation writes := (writes pl types).

(** What an expression without allocation may give: something inside of what the
    variables own, or something shared. *)
Definition part (fp : list loc) (H : heap) (v : value) (hv : hval) : Prop :=
  (exists fp0, own H v hv fp0 /\ incl fp0 fp) \/ shr ro H v hv.
Definition flatV (v : value) : Prop := match v with VStruct _ _ | VList _ => False | _ => True end.
Lemma flat_part : forall fp H v hv, brw ro H v hv -> flatV v -> part fp H v hv.
Proof.
  intros fp H v hv [[fp0 O]|S] F; [left|right; auto]. exists fp0. split; auto. inversion O; subst; try contradiction; intros l [].
Qed.
Lemma part_field : forall fp H ty fs hv f w, part fp H (VStruct ty fs) hv -> alookup f fs = Some w ->
  exists p hfs hw, hv = HPtr p /\ (In p fp \/ ro p) /\ nth_error H p = Some (OStruct ty hfs) /\ alookup f hfs = Some hw /\ part fp H w hw.
Proof.
  intros fp H ty fs hv f w [[fp0 [O IN]]|O] L.
  - destruct (own_struct_inv _ _ _ _ _ O) as (p & hfs & fp' & -> & -> & N & M & OS).
    rewrite lookup_index in L. destruct (index f (map fst fs)) as [k|] eqn:IX; [|discriminate L].
    destruct (owns_split _ _ _ _ OS _ _ L) as (hw & fp1 & rest & N1 & O1 & P & _). exists p, hfs, hw. split; auto. split; [left; apply IN; now left|].
    split; auto. split; [now rewrite lookup_index, <- M, IX|]. left. exists fp1. split; auto.
    intros l I. apply IN. right. rewrite P. apply in_or_app. auto.
  - destruct (shr_struct_inv _ _ _ _ _ O) as (p & hfs & -> & R & N & FF). exists p, hfs.
    cut (exists hw, alookup f hfs = Some hw /\ part fp H w hw). { intros (hw & A & B). eauto 10. }
    clear N O. revert L. induction FF as [|[a b] [c d] fs hfs (A & z & B & C) F IH]; cbn [alookup fst snd] in *; [intros L; discriminate L|intros L].
    subst. destruct (String.eqb f c).
    + inversion L; subst. exists (HInt z). split; auto. right. constructor.
    + destruct (IH L) as (hw & P1 & P2). eauto.
Qed.

Lemma eval_part : forall H G e he fp fz, envR H G e he fp fz -> forall x v hv, pureE G x = true -> eval e x = Ok v -> heval H he x = Ok (hv, H) -> part fp H v hv.
Proof.
  intros H G e he fp fz ER x v hv PU EV HV.
  assert (B : brw ro H v hv). { destruct (eval_sim _ _ _ wide _ _ _ _ _ _ _ ER _ _ PU EV) as (hv' & HV' & B). rewrite HV in HV'. injection HV' as <-. exact B. }
  assert (EX : forall y w, pureE G y = true -> eval e y = Ok w -> exists hw, heval H he y = Ok (hw, H)).
  { intros y w P E. destruct (eval_sim _ _ _ wide _ _ _ _ _ _ _ ER _ _ P E) as (hw & A & _). eauto. }
  revert v hv PU EV HV B. induction x; intros v hv PU EV HV B; cbn [pureE] in PU; try discriminate; try (apply andb_true_iff in PU as [PU1 PU2]);
    try (apply flat_part; auto; cbn [GoLang.eval] in EV;
      repeat match goal with
      | A : context [GoLang.eval types e ?y] |- _ => destruct (GoLang.eval types e y) as [[]| | |]; cbn [bind] in A; try discriminate A
      | A : (match ?z with _ => _ end) = Ok _ |- _ => destruct z; try discriminate A
      end; inversion EV; exact I; fail).
  - cbn [GoLang.eval GoMem.heval] in *. destruct (alookup x e) as [w|] eqn:L; [|discriminate]. inversion EV; subst. apply orb_true_iff in PU as [M|M]; [apply owner_is in M as (k & M & MK)|apply shr_is in M].
    + destruct (lookup_own _ _ _ _ _ _ _ _ ER _ _ _ M MK L) as (hw & fp0 & rest & L1 & O & P & _). rewrite L1 in HV. inversion HV; subst. left. exists fp0. split; auto.
      intros l I. rewrite P. apply in_or_app; auto.
    + destruct (lookup_shr _ _ _ _ _ _ _ _ ER _ _ M L) as (hw & L1 & O). rewrite L1 in HV. inversion HV; subst. right; auto.
  - cbn [GoLang.eval GoMem.heval] in EV, HV. destruct (eval e x) as [w| | |] eqn:E1; try discriminate. cbn [bind] in EV. destruct w; try discriminate.
    destruct (alookup f fs) as [w|] eqn:L; [|discriminate]. inversion EV; subst. destruct (EX _ _ PU E1) as [hw HW]. rewrite HW in HV. cbn [bind] in HV.
    assert (B1 : brw ro H (VStruct ty fs) hw). { destruct (eval_sim _ _ _ wide _ _ _ _ _ _ _ ER _ _ PU E1) as (hv' & HV' & B'). rewrite HW in HV'. injection HV' as <-. exact B'. }
    destruct (part_field _ _ _ _ _ _ _ (IHx _ _ PU eq_refl HW B1) L) as (p & hfs & hw' & -> & _ & N & L1 & P1). rewrite N, L1 in HV. inversion HV; subst. exact P1.
  - cbn [GoLang.eval GoMem.heval] in EV, HV. destruct (eval e x1) as [w| | |] eqn:E1; try discriminate. destruct (eval e x2) as [k| | |] eqn:E2; try discriminate.
    cbn [bind] in EV. destruct w; try discriminate; destruct k; try discriminate.
    + destruct (nthZ b z); [|discriminate]. inversion EV; subst. apply flat_part; auto. exact I.
    + destruct (nthZ l z) as [w|] eqn:L; [|discriminate]. inversion EV; subst. destruct (EX _ _ PU1 E1) as [h1 H1]. destruct (EX _ _ PU2 E2) as [h2 H2].
      rewrite H1 in HV. cbn [bind] in HV. rewrite H2 in HV. cbn [bind] in HV.
      assert (B1 : brw ro H (VList l) h1). { destruct (eval_sim _ _ _ wide _ _ _ _ _ _ _ ER _ _ PU1 E1) as (hv' & HV' & B'). rewrite H1 in HV'. injection HV' as <-. exact B'. }
      assert (h2 = HInt z) as ->. { destruct (eval_sim _ _ _ wide _ _ _ _ _ _ _ ER _ _ PU2 E2) as (hv' & HV' & B'). rewrite H2 in HV'. injection HV' as <-. now apply brw_int in B'. }
      destruct (IHx1 _ _ PU1 eq_refl H1 B1) as [(fp1 & O & IN)|O]; [|inversion O].
      assert (NO : forall hvs fp', owns H l hvs fp' -> incl fp' fp -> nthZ hvs z = Some hv -> part fp H v hv).
      { intros hvs fp' OS I NZ. unfold nthZ in *. destruct (z <? 0); [discriminate|]. destruct (owns_split _ _ _ _ OS _ _ L) as (hw & fp0 & rest & N & O1 & P & _).
        rewrite N in NZ. inversion NZ; subst. left. exists fp0. split; auto. intros y Y. apply I. rewrite P. apply in_or_app. auto. }
      destruct (own_list_inv _ _ _ _ O) as [(hvs & -> & OS)|(base & off & len & cap & l0 & fp' & -> & -> & N0 & _ & _ & OS)].
      * destruct (nthZ hvs z) as [hw|] eqn:NZ; [|discriminate]. inversion HV; subst. eapply NO; eauto.
      * unfold elements in HV. rewrite N0 in HV. destruct (nthZ (firstn len (skipn off l0)) z) as [hw|] eqn:NZ; [|discriminate]. inversion HV; subst. eapply NO; eauto.
        intros y Y. apply IN. now right.
  - cbn [GoLang.eval GoMem.heval] in EV, HV. auto.
Qed.

Lemma part_slice : forall fp H v hv, part fp H v hv -> v <> VNil -> mayRead ro fp (sliceReads hv).
Proof.
  intros fp H v hv P NV l I. destruct hv as [| |b off len cap| | | | |]; cbn [sliceReads] in I; try contradiction.
  destruct len as [|len]; [contradiction|]. destruct I as [<-|[]]. destruct P as [(fp0 & O & IN)|S].
  - inversion O; subst; [contradiction|]. left. apply IN. now left.
  - inversion S as [| | | |b' ? ? ? ? LN _ D|]; subst. destruct D as [->|((R & _) & _)]; [discriminate|auto].
Qed.
Lemma writes_pure : forall G x, pureE G x = true -> forall H he, writes H he x = [].
Proof.
  intros G. induction x; intros PU H he; cbn [pureE] in PU; try discriminate; try (apply andb_true_iff in PU as [PU1 PU2]); cbn [GoConc.writes]; auto;
    try (rewrite IHx1 by auto; cbn [app]; destruct (heval H he x1) as [[]| | |]; auto; fail).
  destruct x; try discriminate. reflexivity.
Qed.
Lemma mayRead_app : forall M a b, mayRead ro M a -> mayRead ro M b -> mayRead ro M (a ++ b).
Proof. intros M a b A B l I. apply in_app_or in I as [I|I]; auto. Qed.
Lemma mayRead_nil : forall M, mayRead ro M [].
Proof. intros M l []. Qed.

Lemma reads_pure : forall H G e he fp fz, envR H G e he fp fz -> forall x v, pureE G x = true -> eval e x = Ok v -> mayRead ro fp (reads H he x).
Proof.
  intros H G e he fp fz ER.
  assert (EX : forall y w, pureE G y = true -> eval e y = Ok w -> exists hw, heval H he y = Ok (hw, H) /\ part fp H w hw).
  { intros y w P E. destruct (eval_sim _ _ _ wide _ _ _ _ _ _ _ ER _ _ P E) as (hw & A & _). exists hw. split; auto. eapply eval_part; eauto. }
  induction x; intros v PU EV; cbn [pureE] in PU; try discriminate; try (apply andb_true_iff in PU as [PU1 PU2]); cbn [GoConc.reads]; try apply mayRead_nil.
  - cbn [GoLang.eval] in EV. destruct (eval e x) as [w| | |] eqn:E1; try discriminate. cbn [bind] in EV. destruct w; try discriminate.
    destruct (alookup f fs) as [w|] eqn:L; [|discriminate]. destruct (EX _ _ PU E1) as (hw & HW & P). rewrite HW.
    destruct (part_field _ _ _ _ _ _ _ P L) as (p & hfs & hw' & -> & R & _). apply mayRead_app; [eapply IHx; eauto|]. intros l [<-|[]]. exact R.
  - cbn [GoLang.eval] in EV. destruct (eval e x1) as [w| | |] eqn:E1; try discriminate. destruct (eval e x2) as [k| | |] eqn:E2; try discriminate. cbn [bind] in EV.
    destruct (EX _ _ PU1 E1) as (h1 & H1 & P1). rewrite H1. apply mayRead_app; [eapply IHx1; eauto|]. apply mayRead_app; [eapply IHx2; eauto|].
    eapply part_slice; eauto; intros ->; destruct k; discriminate EV.
  - cbn [GoLang.eval] in EV. destruct (eval e x) as [w| | |] eqn:E1; try discriminate. eapply IHx; eauto.
  - cbn [GoLang.eval] in EV. destruct (eval e x) as [w| | |] eqn:E1; try discriminate. eapply IHx; eauto.
  - assert (K : forall R, (forall h1, heval H he x1 = Ok (h1, H) -> mayRead ro fp (R h1)) -> mayRead ro fp (reads H he x1 ++ match heval H he x1 with Ok (h1, H1) => R h1 | _ => [] end)).
    { intros R KR. cbn [GoLang.eval] in EV. destruct (eval e x1) as [w| | |] eqn:E1; [|destruct o; discriminate|destruct o; discriminate|destruct o; discriminate].
      destruct (EX _ _ PU1 E1) as (h1 & H1 & P1). rewrite H1. apply mayRead_app; [eapply IHx1; eauto|auto]. }
    assert (EV1 : exists w1, eval e x1 = Ok w1).
    { cbn [GoLang.eval] in EV. destruct (eval e x1) as [w| | |] eqn:E1; [eauto| | |]; destruct o; discriminate. }
    destruct EV1 as [w1 E1]. destruct (EX _ _ PU1 E1) as (h1 & H1 & P1).
    assert (A : mayRead ro fp (reads H he x1)) by (eapply IHx1; eauto).
    assert (EV2 : match o with BAnd => h1 = HBool true | BOr => h1 = HBool false | _ => True end -> exists w2, eval e x2 = Ok w2).
    { assert (BR : brw ro H w1 h1). { destruct (eval_sim _ _ _ wide _ _ _ _ _ _ _ ER _ _ PU1 E1) as (hv' & HV' & B'). rewrite H1 in HV'. injection HV' as <-. exact B'. }
      cbn [GoLang.eval] in EV. rewrite E1 in EV. cbn [bind] in EV. intros Q.
      destruct o; try (destruct (eval e x2) as [w| | |]; [eauto| | |]; destruct w1; discriminate);
        destruct w1; try discriminate; apply brw_bool in BR; subst h1; injection Q as ->; destruct (eval e x2) as [w| | |]; eauto; discriminate. }
    rewrite H1. destruct o; try (apply mayRead_app; [exact A|]; destruct (EV2 I) as [w2 E2]; eapply IHx2; eauto).
    + apply mayRead_app; [exact A|]. destruct h1 as [| | | | | | |[]]; try apply mayRead_nil. destruct (EV2 eq_refl) as [w2 E2]. eapply IHx2; eauto.
    + apply mayRead_app; [exact A|]. destruct h1 as [| | | | | | |[]]; try apply mayRead_nil. destruct (EV2 eq_refl) as [w2 E2]. eapply IHx2; eauto.
  - cbn [GoLang.eval] in EV. destruct (eval e x) as [w| | |] eqn:E1; try discriminate. eapply IHx; eauto.
  - cbn [GoLang.eval] in EV. eapply IHx; eauto.
  - destruct x; try discriminate. apply mayRead_nil.
  - cbn [GoLang.eval] in EV. destruct (eval e x1) as [w| | |] eqn:E1; try discriminate. destruct (eval e x2) as [k| | |] eqn:E2; try discriminate.
    destruct (EX _ _ PU1 E1) as (h1 & H1 & P1). rewrite H1. apply mayRead_app; [eapply IHx1; eauto|eapply IHx2; eauto].
  - cbn [GoLang.eval] in EV. destruct (eval e x1) as [w| | |] eqn:E1; try discriminate. destruct (eval e x2) as [k| | |] eqn:E2; try discriminate.
    destruct (EX _ _ PU1 E1) as (h1 & H1 & P1). rewrite H1. apply mayRead_app; [eapply IHx1; eauto|eapply IHx2; eauto].
  - cbn [GoLang.eval] in EV. destruct (eval e x) as [w| | |] eqn:E1; try discriminate. destruct (EX _ _ PU E1) as (h1 & H1 & P1). rewrite H1.
    apply mayRead_app; [eapply IHx; eauto|eapply part_slice; eauto]. intros ->. discriminate.
  - cbn [GoLang.eval] in EV. destruct (eval e x) as [w| | |] eqn:E1; try discriminate. destruct (EX _ _ PU E1) as (h1 & H1 & P1). rewrite H1.
    apply mayRead_app; [eapply IHx; eauto|eapply part_slice; eauto]. intros ->. discriminate.
  - cbn [GoLang.eval] in EV. destruct (eval e x) as [w| | |] eqn:E1; try discriminate. destruct (EX _ _ PU E1) as (h1 & H1 & P1). rewrite H1.
    apply mayRead_app; [eapply IHx; eauto|eapply part_slice; eauto]. intros ->. discriminate.
Qed.

(** Storing in a place that a variable owns. *)
Lemma okL_value : forall G l, okL G l = true -> forall H e he fp fz v0, envR H G e he fp fz -> NoDup fp -> (forall l, In l fp -> ~ ro l) -> eval e (lexpr l) = Ok v0 ->
  exists hv0 fp0, heval H he (lexpr l) = Ok (hv0, H) /\ own H v0 hv0 fp0 /\ incl fp0 fp.
Proof.
  intros G l OL H e he fp fz v0 ER ND RO EV. destruct (path ro self pl types G l OL _ _ _ _ _ _ ER ND RO EV) as (hv0 & fp0 & rest & O & P & EH & _).
  exists hv0, fp0. split; [apply EH; now intros x _|]. split; auto. intros x I. rewrite P. apply in_or_app. auto.
Qed.
Lemma store_touch : forall G l, okL G l = true -> forall H e he fp fz v e1, envR H G e he fp fz -> NoDup fp -> (forall l, In l fp -> ~ ro l) -> store types e l v = Ok e1 ->
  mayRead ro fp (storeReads pl types H he l) /\ mayWrite fp (storeWrites pl types H he l).
Proof.
  intros G. induction l; intros OL H e he fp fz v e1 ER ND RO ST; cbn [okL] in OL; cbn [store] in ST; cbn [storeReads storeWrites].
  - split; intros y [].
  - destruct (eval e (lexpr l)) as [w| | |] eqn:EL; try discriminate. cbn [bind] in ST. destruct w; try discriminate.
    pose proof (okL_pure _ _ OL) as PU. split; [eapply reads_pure; eauto|]. rewrite (writes_pure G) by auto.
    destruct (okL_value G l OL _ _ _ _ _ _ ER ND RO EL) as (hv0 & fp0 & HV & O & IN). rewrite HV. inversion O; subst. intros y [<-|[]]. apply IN. now left.
  - destruct i as [|i| | | | | | | | | | | | | | | | | | | |]; try discriminate. apply andb_true_iff in OL as [OL NS]. apply andb_true_iff in OL as [OL MI].
    destruct (eval e (lexpr l)) as [w| | |] eqn:EL; try discriminate. cbn [bind] in ST. cbn [GoLang.eval] in ST. destruct (alookup i e) as [wi|]; [|discriminate]. cbn [bind] in ST.
    destruct w; try discriminate; destruct wi; try discriminate. destruct (nthZ l0 z); [|discriminate].
    pose proof (okL_pure _ _ OL) as PU. destruct (okL_value G l OL _ _ _ _ _ _ ER ND RO EL) as (hv0 & fp0 & HV & O & IN). rewrite HV, (writes_pure G) by auto.
    cbn [GoConc.reads GoConc.writes GoMem.heval app]. destruct (IHl OL _ _ _ _ _ _ _ ER ND RO ST) as [A B]. inversion O; subst.
    + destruct (alookup i he); cbn [stuck]; [|split; [apply mayRead_app; [eapply reads_pure; eauto|apply mayRead_nil]|intros y []]].
      split; [apply mayRead_app; [eapply reads_pure; eauto|auto]|auto].
    + split; [apply mayRead_app; [eapply reads_pure; eauto|apply mayRead_nil]|]. destruct (alookup i he); [|intros y []]. intros y [<-|[]]. apply IN. now left.
Qed.
End Touch.
End Old.
