(** Statements of generated code, run by a goroutine while others change the rest
    of memory. *)
From Coq Require Import ZArith String List Bool Lia ZifyBool ZifyNat Permutation.
From Verif Require Import Base GoLang GenSim GoMem MemSim MemPath MemExec MemStep GoConc ConcAlone ConcSafe.
Import ListNotations.
Open Scope string_scope.
Open Scope list_scope.
Open Scope Z_scope.

Section Old.
Context {oldI : Old}.

Section Later.
Variable ro : loc -> Prop.

(** Memory [H'] came from [H] by what a goroutine did to its objects [fp], which
    are [fp'] now, while others left its objects [F] alone. *)
Definition later (F : list loc) (H : heap) (fp : list loc) (H' : heap) (fp' : list loc) : Prop :=
  (List.length H <= List.length H')%nat /\ (forall l, In l F \/ ro l -> nth_error H' l = nth_error H l) /\
  (forall l, In l fp' -> In l fp \/ (List.length H <= l)%nat).
Definition frame (F fp : list loc) (H : heap) : Prop := forall l, In l F -> (l < List.length H)%nat /\ ~ In l fp.

Lemma later_refl : forall F H fp, later F H fp H fp.
Proof. intros. split; [lia|]. split; auto. Qed.
Lemma later_trans : forall F H fp H1 fp1 H2 fp2, later F H fp H1 fp1 -> later F H1 fp1 H2 fp2 -> later F H fp H2 fp2.
Proof.
  intros F H fp H1 fp1 H2 fp2 (A1 & A2 & A3) (B1 & B2 & B3). split; [lia|]. split.
  - intros l I. rewrite B2, A2; auto.
  - intros l I. destruct (B3 _ I) as [J|J]; [auto|right; lia].
Qed.
Lemma later_sub : forall F H fp H1 fp1 fp2, later F H fp H1 fp1 -> (forall l, In l fp2 -> In l fp1) -> later F H fp H1 fp2.
Proof. intros F H fp H1 fp1 fp2 (A1 & A2 & A3) S. split; auto. Qed.
Lemma frame_later : forall F H fp H' fp', frame F fp H -> later F H fp H' fp' -> frame F fp' H'.
Proof.
  intros F H fp H' fp' FR (A1 & A2 & A3) l I. destruct (FR _ I) as [L N]. split; [lia|]. intros J. destruct (A3 _ J); [contradiction|lia].
Qed.
Lemma stable_later : forall F fp H H1, stable ro (fp ++ F) H H1 -> later F H fp H1 fp.
Proof. intros F fp H H1 [A B]. split; auto. split; auto. intros l I. apply B. destruct I; auto. left. apply in_or_app. auto. Qed.
Lemma later_app : forall F H a fp, frame F fp H -> (forall l, ro l -> (l < List.length H)%nat) -> later F H fp (H ++ a) fp.
Proof.
  intros F H a fp FR IN. split; [rewrite app_length; lia|]. split; auto. intros l I. apply nth_error_app1. destruct I as [I|I]; [now apply FR|auto].
Qed.
(** A change of the own objects only. *)
Lemma ext_later : forall F H fp H' fp', frame F fp H -> (forall l, ro l -> (l < List.length H)%nat) -> (forall l, In l fp -> ~ ro l) -> ext H fp H' fp' -> later F H fp H' fp'.
Proof.
  intros F H fp H' fp' FR IN RO (A1 & A2 & A3). split; auto. split; auto. intros l [I|I].
  - destruct (FR _ I). apply A2; auto.
  - apply A2; auto. intros J. eapply RO; eauto.
Qed.
Lemma ext_frame : forall F H fp H' fp', ext H fp H' fp' -> ext H (fp ++ F) H' (fp' ++ F).
Proof.
  intros F H fp H' fp' (A1 & A2 & A3). split; auto. split.
  - intros l L N. apply A2; auto. intros I. apply N, in_or_app. auto.
  - intros l I. apply in_app_or in I as [I|I]; [destruct (A3 _ I); auto; left; apply in_or_app; auto|left; apply in_or_app; auto].
Qed.

Lemma good_stable : forall self F H G e he fp fz H1, good ro self H G e he fp fz -> stable ro (fp ++ F) H H1 -> good ro self H1 G e he fp fz.
Proof.
  intros self F H G e he fp fz H1 [ER ND RO IN] [A B]. constructor; auto.
  - eapply envR_agree; eauto; intros l I; apply B; auto. left. apply in_or_app. auto.
  - intros l R. specialize (IN _ R). lia.
Qed.
Lemma frame_stable : forall F H fp H1, frame F fp H -> stable ro (fp ++ F) H H1 -> frame F fp H1.
Proof. intros F H fp H1 FR ST. eapply frame_later; eauto. now apply stable_later. Qed.
Lemma stable_app : forall self F H G e he fp fz a, good ro self H G e he fp fz -> frame F fp H -> stable ro (fp ++ F) H (H ++ a).
Proof.
  intros self F H G e he fp fz a [ER ND RO IN] FR. split; [rewrite app_length; lia|]. intros l I. apply nth_error_app1. destruct I as [I|I]; auto.
  apply in_app_or in I as [I|I]; [eapply envR_bound; eauto|now apply FR].
Qed.
End Later.

Section Sim.
Variable ro : loc -> Prop.
Variable self : hval.
Variable pl : platform.
Hypothesis wide : word pl = 8.
Variable types : amap (list (string * gtype)).
Variable Post : list loc -> heap -> hres -> Prop.
Notation envR := (envR ro self).
Notation good := (good ro self).
Notation eval := (eval types).
Notation store := (store types).
Notation heval := (heval pl types).
Notation hstore := (hstore pl types).
Notation reads := (reads pl types).
Notation writes := (writes pl types).
Notation safe := (safe ro pl types Post).
Notation later := (later ro).
Notation stable := (stable ro).
Notation mayRead := (mayRead ro).

Lemma mayRead_frame : forall fp F l, mayRead fp l -> mayRead (fp ++ F) l.
Proof. intros fp F l A x I. destruct (A x I); auto. left. apply in_or_app. auto. Qed.
Lemma mayWrite_frame : forall fp F l, mayWrite fp l -> mayWrite (fp ++ F) l.
Proof. intros fp F l A x I. apply in_or_app. auto. Qed.

(* ---------- single steps ---------- *)

(** An expression that allocates nothing. *)
Lemma step_pure : forall F H G e he fp fz a v k, good H G e he fp fz -> pureE G a = true -> eval e a = Ok v ->
  (forall H1 hv, stable (fp ++ F) H H1 -> good H1 G e he fp fz -> heval H1 he a = Ok (hv, H1) -> brw ro H1 v hv -> safe (k hv) (fp ++ F) H1) ->
  safe (TEval he a k) (fp ++ F) H.
Proof.
  intros F H G e he fp fz a v k GD PU EV K H1 ST. pose proof (good_stable _ _ _ _ _ _ _ _ _ _ GD ST) as GD1. pose proof (g_env _ _ _ _ _ _ _ _ GD1) as ER.
  split. { apply mayRead_frame. eapply reads_pure; eauto. }
  split. { rewrite (writes_pure _ _ G) by auto. intros x []. }
  destruct (eval_sim _ _ _ wide _ _ _ _ _ _ _ ER _ _ PU EV) as (hv & HV & B). exists hv, H1, (fp ++ F). split; auto. split; [apply grows_refl|]. auto.
Qed.
Lemma step_cond : forall F H G e he fp fz c b k, good H G e he fp fz -> pureE G c = true -> eval e c = Ok (VBool b) ->
  (forall H1, stable (fp ++ F) H H1 -> good H1 G e he fp fz -> safe (k (HBool b)) (fp ++ F) H1) ->
  safe (TEval he c k) (fp ++ F) H.
Proof.
  intros F H G e he fp fz c b k GD PU EV K. eapply step_pure; eauto. intros H1 hv ST GD1 _ B. apply brw_bool in B. subst. auto.
Qed.
(** An expression whose value is shared. *)
Lemma step_shr : forall F H G e he fp fz a v k, good H G e he fp fz -> frame F fp H -> shrE G a = true -> eval e a = Ok v ->
  (forall H1 hv, stable (fp ++ F) H H1 -> good H1 G e he fp fz -> shr ro H1 v hv -> safe (k hv) (fp ++ F) H1) ->
  safe (TEval he a k) (fp ++ F) H.
Proof.
  intros F H G e he fp fz a v k GD FR S EV K H1 ST. pose proof (good_stable _ _ _ _ _ _ _ _ _ _ GD ST) as GD1. pose proof (g_env _ _ _ _ _ _ _ _ GD1) as ER.
  assert (T : pureE G a = true \/ forall H0, reads H0 he a = [] /\ writes H0 he a = []).
  { destruct a; try discriminate; cbn [shrE] in S; auto. }
  split. { apply mayRead_frame. destruct T as [T|T]; [eapply reads_pure; eauto|]. destruct (T H1) as [-> _]. intros x []. }
  split. { destruct T as [T|T]; [rewrite (writes_pure _ _ G) by auto|destruct (T H1) as [_ ->]]; intros x []. }
  destruct (shr_sim ro self pl wide types _ _ _ _ _ _ _ _ ER S EV) as (hv & d & HV & SH & _).
  exists hv, (H1 ++ d), (fp ++ F). split; auto. split; [apply grows_app|]. apply K; auto.
  - eapply stable_trans; eauto. eapply stable_app; eauto. eapply frame_stable; eauto.
  - now apply good_app.
Qed.
(** An expression whose value is owned by nobody yet. *)
Lemma step_own : forall F H G e he fp fz a v k, good H G e he fp fz -> frame F fp H -> scalarE G a = true \/ freshE G a = true -> eval e a = Ok v ->
  (forall H1 hv fp1, stable (fp ++ F) H H1 -> good H1 G e he fp fz -> own H1 v hv fp1 -> NoDup fp1 ->
     (forall l, In l fp1 -> (List.length H <= l)%nat /\ ~ In l fp /\ ~ ro l /\ ~ In l F) -> (exists H0, heval H0 he a = Ok (hv, H1)) -> safe (k hv) (fp1 ++ fp ++ F) H1) ->
  safe (TEval he a k) (fp ++ F) H.
Proof.
  intros F H G e he fp fz a v k GD FR S EV K H1 ST. pose proof (good_stable _ _ _ _ _ _ _ _ _ _ GD ST) as GD1. pose proof GD1 as [ER ND RO IN].
  assert (T : mayRead fp (reads H1 he a) /\ writes H1 he a = []).
  { destruct S as [S|S].
    - unfold scalarE in S. apply andb_true_iff in S as [S _]. split; [eapply reads_pure; eauto|apply (writes_pure _ _ G); auto].
    - destruct a; try discriminate; cbn [freshE] in S; cbn [GoConc.reads GoConc.writes]; [|split; auto; intros x []].
      cbn [GoLang.eval] in EV. destruct (eval e a) as [w| | |] eqn:EN; try discriminate. split; [eapply reads_pure; eauto|apply (writes_pure _ _ G); auto]. }
  destruct T as [T1 T2]. split; [now apply mayRead_frame|]. split; [rewrite T2; intros x []|].
  assert (X : exists hv d fp1, heval H1 he a = Ok (hv, H1 ++ d) /\ own (H1 ++ d) v hv fp1 /\ NoDup fp1 /\ (forall l, In l fp1 -> (List.length H1 <= l)%nat)).
  { destruct S as [S|S].
    - destruct (scalar_sim ro self pl wide types _ _ _ _ _ _ _ _ ER S EV) as (hv & HV & O).
      exists hv, [], []. rewrite app_nil_r. split; auto. split; auto. split; [constructor|]. intros l0 [].
    - eapply fresh_sim; eauto. }
  destruct X as (hv & d & fp1 & HV & O & N1 & B1). pose proof (frame_stable _ _ _ _ _ FR ST) as FR1.
  exists hv, (H1 ++ d), (fp1 ++ fp ++ F). split; auto. split.
  { destruct (grows_app H1 (fp ++ F) d) as [(X1 & X2 & X3) XB]. split; [split; auto; split; auto; intros l I; apply in_app_or in I as [I|I]; auto|].
    intros B l I. apply in_app_or in I as [I|I]; [eapply own_bound; eauto|now apply XB]. }
  apply K; auto.
  - eapply stable_trans; eauto. eapply stable_app; eauto.
  - now apply good_app.
  - intros l I. specialize (B1 _ I). destruct ST as [LN _]. split; [lia|]. split; [|split].
    + intros J. pose proof (envR_bound _ _ _ _ _ _ _ _ ER _ J). lia.
    + intros J. specialize (IN _ J). lia.
    + intros J. destruct (FR1 _ J). lia.
  - eauto.
Qed.

(** Storing in a variable that is shared. *)
Lemma step_setv : forall F H G e he fp fz x v hv e1 k, good H G e he fp fz -> isShr G x = true -> shr ro H v hv -> store e (LVar x) v = Ok e1 ->
  (forall H1 he1, stable (fp ++ F) H H1 -> good H1 G e1 he1 fp fz -> safe (k he1) (fp ++ F) H1) ->
  safe (TStore he (LVar x) hv k) (fp ++ F) H.
Proof.
  intros F H G e he fp fz x v hv e1 k GD IS SH ST K H1 STB. cbn [storeReads storeWrites]. split; [intros l []|]. split; [intros l []|].
  pose proof (good_stable _ _ _ _ _ _ _ _ _ _ GD STB) as GD1.
  assert (SH1 : shr ro H1 v hv). { eapply shr_agree; eauto. intros l R. destruct STB as [_ B]. auto. }
  destruct (setv ro self pl types H1 G e he fp fz x v hv GD1 IS SH1) as (he1 & KV). destruct (KV _ ST) as [HS GD2].
  exists he1, H1, (fp ++ F). split; auto. split; [apply grows_refl|]. auto.
Qed.

(** Storing something new in a place inside of what is owned. *)
Lemma nodup_join : forall {A} (a b : list A), NoDup a -> NoDup b -> (forall x, In x a -> ~ In x b) -> NoDup (a ++ b).
Proof.
  induction a as [|x a IH]; intros b NA NB D; cbn [app]; auto. inversion NA; subst. constructor.
  - intros I. apply in_app_or in I as [I|I]; [contradiction|]. apply (D x); auto. now left.
  - apply IH; auto. intros y I. apply D. now right.
Qed.
Lemma set_own : forall H G e he fp fz l v hv fp1 e1, good H G e he fp fz -> okL G l = true -> selfVar G l = false ->
  own H v hv fp1 -> NoDup fp1 -> (forall l, In l fp1 -> ~ In l fp /\ ~ ro l) -> store e l v = Ok e1 ->
  exists H2 he1 fp', hstore H he l hv = Ok (H2, he1) /\ good H2 G e1 he1 fp' fz /\ agree (fun l => ~ In l fp) H H2 /\
    List.length H2 = List.length H /\ (forall l, In l fp' -> In l fp1 \/ In l fp).
Proof.
  intros H G e he fp fz l v hv fp1 e1 GD OL NS O ND1 FR S. destruct GD as [ER ND RO IN].
  destruct (store_eval _ _ _ _ _ S) as (v0 & EV).
  destruct (path ro self pl types G l OL _ _ _ _ _ _ ER ND RO EV) as (hv0 & fp0 & rest & O0 & P & _ & K).
  assert (INr : forall x, In x rest -> In x fp) by (intros x I; rewrite P; apply in_or_app; auto).
  pose proof (Permutation_NoDup P ND) as ND'. destruct (nodup_app _ _ ND') as (_ & NDr & _).
  destruct (K H v hv fp1 e1) as (H2 & he1 & fp' & S1 & E1 & P1 & AG & LN & _); auto; try (now intros x _).
  { intros x I J. apply (proj1 (FR _ I)); auto. }
  { congruence. }
  assert (IN' : forall x, In x fp' -> In x fp1 \/ In x fp).
  { intros x I. apply (perm_in _ _ _ P1) in I. apply in_app_or in I as [I|I]; auto. }
  exists H2, he1, fp'. split; auto. split; [|split; [|split; auto]].
  - constructor; auto.
    + apply (Permutation_NoDup (Permutation_sym P1)). apply nodup_join; auto. intros x I J. apply (proj1 (FR _ I)); auto.
    + intros x I R. destruct (IN' _ I) as [J|J]; [apply (proj2 (FR _ J)); auto|eapply RO; eauto].
    + intros x R. rewrite LN. auto.
  - intros x N. apply AG. intros I. apply N; auto.
Qed.
Lemma step_set : forall F H G e he fp fz l v hv fp1 e1 k, good H G e he fp fz -> frame F fp H -> okL G l = true -> selfVar G l = false ->
  own H v hv fp1 -> NoDup fp1 -> (forall l, In l fp1 -> ~ In l fp /\ ~ ro l /\ ~ In l F) -> store e l v = Ok e1 ->
  (forall H1 he1 fp', good H1 G e1 he1 fp' fz -> later F H (fp1 ++ fp) H1 fp' -> (exists H0, hstore H0 he l hv = Ok (H1, he1)) -> safe (k he1) (fp' ++ F) H1) ->
  safe (TStore he l hv k) (fp1 ++ fp ++ F) H.
Proof.
  intros F H G e he fp fz l v hv fp1 e1 k GD FR OL NS O ND1 D S K H1 ST.
  assert (ST' : stable (fp ++ F) H H1) by (eapply stable_incl; [|exact ST]; intros x I; apply in_or_app; auto).
  pose proof (good_stable _ _ _ _ _ _ _ _ _ _ GD ST') as GD1. pose proof GD1 as [ER ND RO IN].
  destruct (store_touch ro self pl wide types G l OL _ _ _ _ _ _ _ ER ND RO S) as [T1 T2].
  split. { intros x I. destruct (T1 _ I); auto. left. apply in_or_app. right. apply in_or_app. auto. }
  split. { intros x I. apply in_or_app. right. apply in_or_app. left. auto. }
  assert (O1 : own H1 v hv fp1). { eapply own_agree; eauto. intros x I. destruct ST as [_ B]. apply B. left. apply in_or_app. auto. }
  destruct (set_own H1 G e he fp fz l v hv fp1 e1) as (H2 & he1 & fp' & HS & GD2 & AG & LN & IN'); auto. { intros x I. destruct (D _ I) as (A & B & _). auto. }
  exists he1, H2, (fp' ++ F). split; auto. split.
  - assert (SUB : forall x, In x (fp' ++ F) -> In x (fp1 ++ fp ++ F)).
    { intros x I. apply in_app_or in I as [I|I]; [destruct (IN' _ I); apply in_or_app; auto; right; apply in_or_app; auto|].
      apply in_or_app. right. apply in_or_app. auto. }
    split; [split; [lia|]; split; auto|].
    + intros x L N. apply AG. intros I. apply N. apply in_or_app. right. apply in_or_app. auto.
    + intros B x I. rewrite LN. auto.
  - apply K; eauto. destruct ST as [L B]. split; [lia|]. split.
    + intros x I. rewrite AG. { apply B. destruct I; auto. left. apply in_or_app. right. apply in_or_app. auto. }
      intros J. destruct I as [I|I]; [apply (proj2 (FR _ I)); auto|eapply RO; eauto].
    + intros x I. left. apply in_or_app. destruct (IN' _ I); auto.
Qed.
Lemma later_new : forall F H0 fp H fp1 H1 fp', later F H0 fp H fp -> (forall l, In l fp1 -> (List.length H0 <= l)%nat) -> later F H (fp1 ++ fp) H1 fp' ->
  later F H0 fp H1 fp'.
Proof.
  intros F H0 fp H fp1 H1 fp' (A1 & A2 & A3) B (C1 & C2 & C3). split; [lia|]. split.
  - intros l I. rewrite C2, A2; auto.
  - intros l I. destruct (C3 _ I) as [J|J]; [apply in_app_or in J as [J|J]; auto|right; lia].
Qed.

(** The arguments of a call. *)
Lemma step_args : forall F G e he fp fz ys vs, forallb (isShr G) ys = true -> mapM (eval e) (map EVar ys) = Ok vs -> forall H k, good H G e he fp fz ->
  (forall H1 hvs, stable (fp ++ F) H H1 -> good H1 G e he fp fz -> Forall2 (shr ro H1) vs hvs -> safe (k hvs) (fp ++ F) H1) ->
  safe (tevals he (map EVar ys) k) (fp ++ F) H.
Proof.
  intros F G e he fp fz. induction ys as [|y ys IH]; intros vs A M H k GD K; cbn [map mapM tevals forallb] in *.
  - inversion M; subst. apply K; auto. apply stable_refl.
  - apply andb_true_iff in A as [A1 A2]. destruct (eval e (EVar y)) as [v| | |] eqn:E1; try discriminate. cbn [bind] in M.
    destruct (mapM (eval e) (map EVar ys)) as [vs1| | |] eqn:M1; try discriminate. cbn [bind] in M. inversion M; subst.
    assert (PU : pureE G (EVar y) = true) by (cbn [pureE]; rewrite A1; apply orb_true_r).
    eapply step_pure; eauto. intros H1 hv ST GD1 HV _. eapply IH; eauto. intros H2 hvs ST2 GD2 F2. apply K; auto.
    + eapply stable_trans; eauto.
    + constructor; auto. cbn [GoLang.eval GoMem.heval] in *. destruct (alookup y e) as [u|] eqn:L; [|discriminate]. inversion E1; subst. apply shr_is in A1.
      destruct (lookup_shr _ _ _ _ _ _ _ _ (g_env _ _ _ _ _ _ _ _ GD2) _ _ A1 L) as (hw & LH & S). rewrite LH in HV. inversion HV; subst. exact S.
Qed.

End Sim.
End Old.
