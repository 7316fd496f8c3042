(** Property C80: goroutines that parse at the same time.

    GoConc.v has goroutines, which take their steps in any order on one memory,
    and says which objects a step accesses.  A [job] (ConcSpec.v) is a goroutine
    that calls Parse on a receiver, or ParseX; the input and the contexts of
    different jobs may be the same objects, receivers may not.
    [psteps P Q]: some order of steps leads from the pool [P] to [Q]. *)
From Coq Require Import ZArith String List Bool Lia.
From Verif Require Import Base Ast IntervalsModel InspectModel InspectSpec InspectProofs GoLang GenModel GenCheck WireSpec GenTerm GenSafe
  PackageSpec PackageProofs PackageFacts PackageMore GenExamples GenWitness GoMem MemSpec MemTop P_Memory
  GoConc ConcAlone ConcTouch ConcPool ConcSpec ConcTop.
Import ListNotations.
Open Scope string_scope.
Open Scope list_scope.
Open Scope Z_scope.

(** C80. Whatever the order of steps: at no moment are two goroutines about to
    access the same object, one of them to write it; those that have ended have
    what their call returns by itself, and keep it; what they filled in is
    separate; nothing older was changed but receivers. *)
Theorem C80_parallel_parses : forall camel os fs r p, package camel os fs r p -> forall pl, word pl = 8 ->
  forall H jobs, Forall (jobOk camel fs r H) jobs -> ownReceivers jobs -> (forall j, In j jobs -> jobEnds camel r p j) ->
  exists n0, forall n, (n0 <= n)%nat -> forall P, psteps pl (ptypes p) (H, map (started camel p n) jobs) P -> fine camel r p pl H jobs P.
Proof. intros camel os fs r p PK pl W H jobs OK AP E. exact (pool_fine camel os fs r p PK pl W H jobs OK AP E). Qed.
Print Assumptions C80_parallel_parses.

(** And all of them end: no order of steps goes on for ever, and where it stops
    every goroutine has its answer. *)
Theorem C80_all_answered : forall camel os fs r p, package camel os fs r p -> forall pl, word pl = 8 ->
  forall H jobs, Forall (jobOk camel fs r H) jobs -> ownReceivers jobs -> (forall j, In j jobs -> jobEnds camel r p j) ->
  exists n0, forall n, (n0 <= n)%nat ->
    Acc (fun Q P => pstep pl (ptypes p) P Q) (H, map (started camel p n) jobs) /\
    forall P, psteps pl (ptypes p) (H, map (started camel p n) jobs) P -> (forall Q, ~ pstep pl (ptypes p) P Q) ->
      forall i j, nth_error jobs i = Some j -> exists res, nth_error (snd P) i = Some (TEnd res) /\ answered camel r p (List.length H) (fst P) j res.
Proof.
  intros camel os fs r p PK pl W H jobs OK AP E. destruct (pool_fine camel os fs r p PK pl W H jobs OK AP E) as [n0 F]. exists n0. intros n L. split; [apply pool_ends|].
  intros P S STOP i j J. destruct (F n L P S) as (_ & LN & AN & _). destruct (nth_error (snd P) i) as [t|] eqn:T.
  - destruct t as [res| | |]; [exists res; split; eauto| | |]; exfalso; destruct P as [H1 ts]; cbn [snd] in T;
      (destruct (can_step pl (ptypes p) H1 ts i _ T) as [Q Q']; [discriminate|exact (STOP Q Q')]).
  - apply nth_error_None in T. assert (i < List.length jobs)%nat by (apply nth_error_Some; congruence). lia.
Qed.
Print Assumptions C80_all_answered.

(** For packages of the kind of C21 and C23 every call returns, so nothing needs to
    be known about the inputs. *)
Theorem C80_any_input : forall camel os fs r p, package camel os fs r p -> forall pl, word pl = 8 ->
  ptrFiles fs = true -> narrowFiles fs r -> (exists rank, progress fs r rank) ->
  forall H jobs, Forall (jobOk camel fs r H) jobs -> ownReceivers jobs ->
  exists n0, forall n, (n0 <= n)%nat -> forall P, psteps pl (ptypes p) (H, map (started camel p n) jobs) P -> fine camel r p pl H jobs P.
Proof.
  intros camel os fs r p PK pl W PT NF [rank PR] H jobs OK AP. eapply C80_parallel_parses; eauto.
  intros j J. pose proof (proj1 (Forall_forall _ _) OK _ J) as (VC & _).
  destruct (terminates camel os fs r p PK (jstruct j) _ (jdata j) (jargs j) VC PT rank PR) as [(fs1 & rest & P)|[(e & P)|(m & n0 & P)]].
  - left. exists fs1, rest. exact P.
  - right. exists e. exact P.
  - exfalso. exact (never_panics camel os fs r p PK (jstruct j) _ (jdata j) (jargs j) VC NF n0 m (P n0 (le_n _))).
Qed.
Print Assumptions C80_any_input.

(** Goroutines do what calls do: one that is alone ends as the call of C66-C68
    does. *)
Theorem C80_alone_is_a_call : forall pl p n,
  (forall H recv d args, snd (alone pl (ptypes p) (tcallMethod p n recv d args TEnd) H) = snd (hcallMethod pl p n H recv d args) /\
     forall v w, snd (hcallMethod pl p n H recv d args) = HRet v w -> alone pl (ptypes p) (tcallMethod p n recv d args TEnd) H = hcallMethod pl p n H recv d args) /\
  (forall H ty d args, snd (alone pl (ptypes p) (tcallCtor p n ty d args TEnd) H) = snd (hcallCtor pl p n ty H d args) /\
     forall v w, snd (hcallCtor pl p n ty H d args) = HRet v w -> alone pl (ptypes p) (tcallCtor p n ty d args TEnd) H = hcallCtor pl p n ty H d args).
Proof.
  intros pl p n. split.
  - intros H recv d args. pose proof (alone_call pl p n H recv d args TEnd) as E. destruct (hcallMethod pl p n H recv d args) as [H1 res]. unfold ends in E.
    cbn [fst snd alone] in *. destruct res; rewrite E; split; auto; intros; discriminate.
  - intros H ty d args. pose proof (alone_ctor pl p n ty H d args TEnd) as E. destruct (hcallCtor pl p n ty H d args) as [H1 res]. unfold ends in E.
    cbn [fst snd alone] in *. destruct res; rewrite E; split; auto; intros; discriminate.
Qed.
Print Assumptions C80_alone_is_a_call.

(** What is said about accesses is all there is: a step leaves alone what it does
    not write, and contents that it neither reads nor writes make no difference
    to it. *)
Theorem C80_steps_write : forall pl types H t H1 t1, tstep pl types H t = Some (H1, t1) ->
  (List.length H <= List.length H1)%nat /\
  forall l, (l < List.length H)%nat -> ~ In l (stepWrites pl types H t) -> nth_error H1 l = nth_error H l.
Proof.
  intros pl types H t H1 t1 E. destruct t as [res|e x k|e l v k|q k]; cbn [tstep stepWrites] in *; [discriminate| | |]; injection E as E.
  - destruct (heval pl types H e x) as [[v H2]| | |] eqn:EV; cbn [resume] in E; injection E as <- <-; auto. exact (heval_writes pl types x H e v H2 EV).
  - destruct (hstore pl types H e l v) as [[H2 e2]| | |] eqn:EV; cbn [resume] in E; injection E as <- <-; auto. exact (hstore_writes pl types l H e v H2 e2 EV).
  - destruct (nth_error H q) as [[|ty f]|]; injection E as <- <-; auto.
Qed.
Print Assumptions C80_steps_write.
Theorem C80_steps_read : forall pl types H H' t, sameTypes H H' ->
  (forall l, In l (stepReads pl types H t) \/ In l (stepWrites pl types H t) -> nth_error H' l = nth_error H l) ->
  match tstep pl types H t with
  | Some (H1, t1) => exists H1', tstep pl types H' t = Some (H1', t1) /\ forall l, nth_error H' l = nth_error H l -> nth_error H1' l = nth_error H1 l
  | None => tstep pl types H' t = None
  end.
Proof.
  intros pl types H H' t S A. destruct t as [res|e x k|e l v k|q k]; cbn [tstep stepReads stepWrites] in *; [reflexivity| | |].
  - assert (D := heval_depends pl types x H H' e S). assert (AG : agreeOn (reads pl types H e x ++ writes pl types H e x) H H') by (intros l I; apply A, in_app_or, I). specialize (D AG).
    destruct (heval pl types H e x) as [[v H2]| | |]; cbn [same resume] in *; try (rewrite D; cbn [resume]; eauto; fail). destruct D as (H2' & -> & _ & I). cbn [resume]. eauto.
  - assert (D := hstore_depends pl types l H H' e v S). assert (AG : agreeOn (storeReads pl types H e l ++ storeWrites pl types H e l) H H') by (intros y I; apply A, in_app_or, I). specialize (D AG).
    destruct (hstore pl types H e l v) as [[H2 e2]| | |]; cbn [resume] in *; try (rewrite D; cbn [resume]; eauto; fail). destruct D as (H2' & -> & _ & I). cbn [resume]. eauto.
  - specialize (S q). destruct (nth_error H q) as [[|ty f]|], (nth_error H' q) as [[|ty' f']|]; try contradiction; cbn in S; subst; eauto.
Qed.
Print Assumptions C80_steps_read.

(** Runs with a given order of steps. *)
Fixpoint schedule (pl : platform) (types : amap (list (string * gtype))) (is : list nat) (P : pool) : pool :=
  match is with
  | [] => P
  | i :: is' =>
      match nth_error (snd P) i with
      | Some t => match tstep pl types (fst P) t with Some (H1, t1) => schedule pl types is' (H1, updN (snd P) i t1) | None => schedule pl types is' P end
      | None => P
      end
  end.
Lemma steps_trans : forall pl types P Q R, psteps pl types P Q -> psteps pl types Q R -> psteps pl types P R.
Proof. intros pl types P Q R A B. revert A. induction B as [Q|Q Q1 R B IH S]; intros A; auto. eapply psteps_more; [exact (IH A)|exact S]. Qed.
Lemma schedule_steps : forall pl types is P, psteps pl types P (schedule pl types is P).
Proof.
  intros pl types is. induction is as [|i is IH]; intros [H ts]; [constructor|]. cbn [schedule fst snd]. destruct (nth_error ts i) as [t|] eqn:E; [|constructor].
  destruct (tstep pl types H t) as [[H1 t1]|] eqn:S; auto. eapply steps_trans; [|apply IH]. eapply psteps_more; [constructor|]. econstructor; eauto.
Qed.
Definition racy (pl : platform) (types : amap (list (string * gtype))) (P : pool) (i j : nat) : bool :=
  match nth_error (snd P) i, nth_error (snd P) j with
  | Some t, Some u =>
      negb (i =? j)%nat && existsb (fun l => existsb (Nat.eqb l) (stepReads pl types (fst P) u ++ stepWrites pl types (fst P) u)) (stepWrites pl types (fst P) t)
  | _, _ => false
  end.
Lemma racy_race : forall pl types P i j, racy pl types P i j = true -> race pl types P.
Proof.
  intros pl types P i j E. unfold racy in E. destruct (nth_error (snd P) i) as [t|] eqn:T; [|discriminate]. destruct (nth_error (snd P) j) as [u|] eqn:U; [|discriminate].
  apply andb_true_iff in E as [N E]. apply existsb_exists in E as (l & I & E). apply existsb_exists in E as (k & J & E). apply Nat.eqb_eq in E. subst k.
  exists i, j, t, u, l. apply in_app_or in J. split; [|auto]. intros ->. rewrite Nat.eqb_refl in N. discriminate.
Qed.

(** Two that parse the same bytes with the same context, one on a receiver that
    has been used before, the other with ParseMsg. *)
Local Arguments HPtr p%nat.
Local Arguments HSlice base%nat off%nat len%nat cap%nat.
Definition onUsed : job := {| jstruct := msg; jrecv := Some (2%nat, usedFields 1); jslice := usedData; jdata := msgBytes ++ msgRest; jctxs := [HPtr 1]; jargs := [optsV 2] |}.
Definition onNew : job := {| jstruct := msg; jrecv := None; jslice := usedData; jdata := msgBytes ++ msgRest; jctxs := [HPtr 1]; jargs := [optsV 2] |}.
Lemma used_ok : jobOk camelX demo demoR usedHeap onUsed.
Proof. destruct used_call as [VC [MR MD MA]]. split; [exact VC|]. split; [exact MR|]. split; [exact MD|exact MA]. Qed.
Lemma new_ok : jobOk camelX demo demoR usedHeap onNew.
Proof. destruct used_call as [_ [_ MD MA]]. split; [exact (msg_call _ 2 msg_bytes ltac:(lia))|]. split; [exact I|]. split; [exact MD|exact MA]. Qed.
Lemma jobs_ok : Forall (jobOk camelX demo demoR usedHeap) [onUsed; onNew; onNew].
Proof. constructor; [exact used_ok|]. constructor; [exact new_ok|]. constructor; [exact new_ok|constructor]. Qed.
Lemma jobs_apart : ownReceivers [onUsed; onNew; onNew].
Proof.
  intros i k a b l N A B [f1 RA] [f2 RB]. destruct i as [|[|[|i]]], k as [|[|[|k]]]; cbn in A, B; try congruence;
    try (injection A as <-); try (injection B as <-); try discriminate RA; try discriminate RB; try (destruct i; discriminate A); destruct k; discriminate B.
Qed.
Definition turns (n : nat) : list nat := concat (repeat [0; 1; 2]%nat n).
Example C80_case : package camelX osX demo demoR demoP /\ word wide = 8 /\ ptrFiles demo = true /\ narrowFiles demo demoR /\ (exists rank, progress demo demoR rank) /\
  Forall (jobOk camelX demo demoR usedHeap) [onUsed; onNew; onNew] /\ ownReceivers [onUsed; onNew; onNew] /\
  map (fun t => match t with TEnd res => Some res | _ => None end)
    (snd (schedule wide (ptypes demoP) (turns 300) (usedHeap, map (started camelX demoP 6) [onUsed; onNew; onNew]))) =
    [Some (HRet (HSlice 0 16 2 4) HNil); Some (HRet (HPtr 4) HNil); Some (HRet (HPtr 5) HNil)].
Proof.
  split; [exact demo_package|]. split; [reflexivity|]. split; [exact demo_ptr|]. split; [exact demo_narrow|]. split; [exists demoRank; exact demo_progress|].
  split; [exact jobs_ok|]. split; [exact jobs_apart|]. vm_compute. reflexivity.
Qed.

(** Without receivers of their own goroutines race. *)
Theorem C80_shared_receiver_refuted : exists camel os fs r p pl H jobs n P,
  package camel os fs r p /\ word pl = 8 /\ Forall (jobOk camel fs r H) jobs /\
  psteps pl (ptypes p) (H, map (started camel p n) jobs) P /\ race pl (ptypes p) P.
Proof.
  exists camelX, osX, demo, demoR, demoP, wide, usedHeap, [onUsed; onUsed], 6%nat.
  exists (schedule wide (ptypes demoP) (concat (repeat [0; 1]%nat 4)) (usedHeap, map (started camelX demoP 6) [onUsed; onUsed])).
  split; [exact demo_package|]. split; [reflexivity|]. split; [|split].
  - constructor; [exact used_ok|]. constructor; [exact used_ok|constructor].
  - apply schedule_steps.
  - apply racy_race with (i := 0%nat) (j := 1%nat). vm_compute. reflexivity.
Qed.
Print Assumptions C80_shared_receiver_refuted.
