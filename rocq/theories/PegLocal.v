(** What a failed parse depends on: the text up to shortly after the farthest
    failure. *)
From Coq Require Import ZArith String Ascii List Bool Lia ZifyBool ZifyNat.
From Verif Require Import Base Ast PegModel PegGrammar PegEngine PegRunes PegReport PegReportProofs PegPlace PegReportTop.
Import ListNotations.
Open Scope string_scope.
Open Scope list_scope.
Open Scope Z_scope.

(* ---------- the shape of the grammar ---------- *)

Section Shape.
Variable rules : grammar.
Definition shortLit (k : nat) (v : string) : bool := (length (textOf v) <=? k)%nat && forallb (fun c => byte c <? 128) (textOf v).
Definition terminal (e : expr) : bool :=
  match e with
  | ELit v => shortLit 2 v
  | EAny => true
  | ERule name => match alookup name rules with Some (ELit v) => shortLit 2 v | _ => false end
  | _ => false
  end.
Fixpoint short (e : expr) : bool :=
  match e with
  | EAct _ e => short e
  | EAny => true
  | EClass _ _ => true
  | EChoice alts => match alts with [] => false | _ => forallb short alts end
  | ELabel _ e => short e
  | ELit v => shortLit 7 v
  | ENot e => terminal e
  | EPlus e => short e
  | ERule name => match alookup name rules with Some _ => true | None => false end
  | ESeq es => forallb short es
  | EState _ => true
  | EStar e => short e
  | EOpt e => short e
  end.
Definition shortRules : bool := forallb (fun r => short (snd r)) rules.
End Shape.
Lemma g_short : shortRules g = true.
Proof. vm_compute. reflexivity. Qed.

(* ---------- positions move forward ---------- *)

Definition adv (s s' : rst) : Prop := inverted s' = inverted s /\ offset (far s) <= offset (far s').
Lemma adv_refl : forall s, adv s s.
Proof. split; [auto|lia]. Qed.
Lemma adv_trans : forall a b c, adv a b -> adv b c -> adv a c.
Proof. intros a b c [A1 A2] [B1 B2]. split; [congruence|lia]. Qed.

Lemma pt_failAt : forall b p w s, pt (failAt b p w s) = pt s.
Proof. intros b p w s. unfold failAt. destruct (Bool.eqb b (inverted s)); [|reflexivity]. destruct (offset p <? offset (far s)); [reflexivity|]. destruct (offset (far s) <? offset p); reflexivity. Qed.
Lemma adv_failAt : forall b p w s, adv s (failAt b p w s).
Proof.
  intros b p w s. unfold failAt. destruct (Bool.eqb b (inverted s)); [|apply adv_refl]. destruct (offset p <? offset (far s)); [apply adv_refl|].
  destruct (offset (far s) <? offset p) eqn:E; split; cbn [inverted far]; auto; lia.
Qed.
Lemma far_failAt : forall b p w s, b = inverted s -> offset p <= offset (far (failAt b p w s)).
Proof.
  intros b p w s ->. unfold failAt. rewrite eqb_reflx. destruct (offset p <? offset (far s)) eqn:E; [lia|].
  destruct (offset (far s) <? offset p) eqn:E2; cbn [far]; lia.
Qed.
Lemma readR_pt : forall rule s, offset (pt (readR rule s)) = offset (pt s) + Z.of_nat (snd (DecodeRune (rest (base s)))).
Proof. intros. unfold readR, arrive. destruct (invalid _); cbn [pt addReport withPt]; unfold next; destruct (_ =? 10); reflexivity. Qed.
Lemma readR_adv : forall rule s, adv s (readR rule s).
Proof. intros. unfold readR, arrive. destruct (invalid _); split; cbn; auto; lia. Qed.
Lemma litLoop_adv : forall rule want s, adv s (snd (litLoopR rule want s)) /\ offset (pt s) <= offset (pt (snd (litLoopR rule want s))).
Proof.
  intros rule. induction want as [|c want IH]; intros s; cbn [litLoopR]; [split; [apply adv_refl|cbn; lia]|].
  destruct (_ =? _); [|split; [apply adv_refl|cbn; lia]]. destruct (IH (readR rule s)) as [A B]. split.
  - eapply adv_trans; [apply readR_adv|exact A].
  - rewrite readR_pt in B. lia.
Qed.

(** What holds after an expression. *)
Definition moves (s : rst) (ok : bool) (s' : rst) : Prop :=
  adv s s' /\
  (if ok then offset (pt s) <= offset (pt s') else pt s' = pt s /\ rest (base s') = rest (base s)) /\
  (ok = inverted s -> offset (pt s) <= offset (far s')).

Lemma anyR_moves : forall rule f s, moves s (fst (fst (fst (anyR rule f s)))) (snd (anyR rule f s)).
Proof.
  intros. unfold anyR. destruct (atEnd (base s)); cbn [fst snd].
  - split; [apply adv_failAt|]. split; [rewrite pt_failAt, base_failAt; auto|]. apply far_failAt.
  - split; [eapply adv_trans; [apply readR_adv|apply adv_failAt]|]. split; [rewrite pt_failAt, readR_pt; lia|].
    intros E. apply far_failAt. rewrite (proj1 (readR_adv rule s)). exact E.
Qed.
Lemma classR_moves : forall rule a b f s, moves s (fst (fst (fst (classR rule a b f s)))) (snd (classR rule a b f s)).
Proof.
  intros. unfold classR. destruct (atEnd (base s)); [|destruct (inClass _ _ _)]; cbn [fst snd].
  - split; [apply adv_failAt|]. split; [rewrite pt_failAt, base_failAt; auto|]. apply far_failAt.
  - split; [eapply adv_trans; [apply readR_adv|apply adv_failAt]|]. split; [rewrite pt_failAt, readR_pt; lia|].
    intros E. apply far_failAt. rewrite (proj1 (readR_adv rule s)). exact E.
  - split; [apply adv_failAt|]. split; [rewrite pt_failAt, base_failAt; auto|]. apply far_failAt.
Qed.
Lemma litR_moves : forall rule v f s, moves s (fst (fst (fst (litR rule v f s)))) (snd (litR rule v f s)).
Proof.
  intros. unfold litR. destruct (litLoop_adv rule (textOf v) s) as [A B]. destruct (litLoopR rule (textOf v) s) as [ok s'].
  cbn [snd] in A, B. destruct ok; cbn [fst snd].
  - split; [eapply adv_trans; [exact A|apply adv_failAt]|]. split; [rewrite pt_failAt; lia|].
    intros E. apply far_failAt. rewrite (proj1 A). exact E.
  - split; [exact (adv_trans _ _ _ A (adv_failAt false (pt s) (quote v) s'))|]. split; [split; reflexivity|].
    intros E. pose proof (far_failAt false (pt s) (quote v) s') as F. rewrite (proj1 A) in F. exact (F E).
Qed.

Section Local.
Variable rules : grammar.
Hypothesis short_rules : shortRules rules = true.
Lemma rule_short : forall name e, alookup name rules = Some e -> short rules e = true.
Proof using short_rules.
  intros name e H. unfold shortRules in short_rules. rewrite forallb_forall in short_rules.
  enough (J : In (name, e) rules) by (apply (short_rules _ J)). clear short_rules. generalize rules H. clear. intros rules H.
  induction rules as [|[k x] l IH]; [discriminate|]. cbn [alookup] in H. destruct (String.eqb name k) eqn:E.
  - apply String.eqb_eq in E. inversion H; subst. left. reflexivity.
  - right. auto.
Qed.

(** The argument of [!]. *)
Lemma terminal_moves : forall n rule e f s ok v f' s', terminal rules e = true ->
  exprR rules n rule e f s = Ok (ok, v, f', s') -> moves s ok s'.
Proof using.
  assert (T : forall s ok s', moves (tick s) ok s' -> moves s ok s') by (intros s ok s' H; exact H).
  assert (L : forall n rule v0 f s ok v f' s', exprR rules n rule (ELit v0) f s = Ok (ok, v, f', s') -> moves s ok s').
  { intros [|n] rule v0 f s ok v f' s' H; [discriminate|]. rewrite exprR_S in H. cbv zeta in H. apply T.
    pose proof (litR_moves rule v0 f (tick s)) as M. inversion H as [E]. rewrite E in M. exact M. }
  intros n rule e f s ok v f' s' HT H. destruct e; try discriminate.
  - destruct n; [discriminate|]. rewrite exprR_S in H. cbv zeta in H. apply T.
    pose proof (anyR_moves rule f (tick s)) as M. inversion H as [E]. rewrite E in M. exact M.
  - eapply L; eauto.
  - destruct n; [discriminate|]. rewrite exprR_S in H. cbv zeta in H. cbn [terminal] in HT.
    destruct (alookup name rules) as [e|]; [|discriminate]. destruct e; try discriminate.
    apply bind_ok in H as ([[[ok1 v1] f1] s1] & H1 & H). apply L in H1. inversion H; subst. exact H1.
Qed.

Lemma tick_moves : forall s ok s', moves (tick s) ok s' -> moves s ok s'.
Proof using. intros s ok s' H. exact H. Qed.

Lemma all_moves : forall n,
  (forall rule e f s ok v f' s', short rules e = true -> inverted s = false ->
     exprR rules n rule e f s = Ok (ok, v, f', s') -> moves s ok s') /\
  (forall rule es f s ok v f' s', forallb (short rules) es = true -> inverted s = false ->
     (es = [] -> offset (pt s) <= offset (far s)) ->
     altsR rules n rule es f s = Ok (ok, v, f', s') -> moves s ok s') /\
  (forall rule es f s ok v f' s', forallb (short rules) es = true -> inverted s = false ->
     seqR rules n rule es f s = Ok (ok, v, f', s') ->
     adv s s' /\ (if ok then offset (pt s) <= offset (pt s') else offset (pt s) <= offset (far s'))) /\
  (forall rule e s ok v s', short rules e = true -> inverted s = false ->
     loopR rules n rule e s = Ok (ok, v, s') ->
     ok = true /\ adv s s' /\ offset (pt s) <= offset (pt s') <= offset (far s') /\
     (v = [] -> pt s' = pt s /\ rest (base s') = rest (base s))).
Proof using short_rules.
  induction n as [|n (IE & IA & IS & IL)]; [repeat split; intros; discriminate|]. split; [|split; [|split]].
  - intros rule e f s ok v f' s' SH INV H. apply tick_moves. rewrite exprR_S in H. cbv zeta in H.
    change (inverted (tick s) = false) in INV. set (s0 := tick s) in *. clearbody s0. clear s. destruct e; cbn [short] in SH.
    + apply bind_ok in H as ([[[ok1 v1] f1] s1] & H1 & H). apply IE in H1; auto. destruct ok1.
      * apply bind_ok in H as ([v' er] & H2 & H). inversion H; subst. destruct er; exact H1.
      * inversion H; subst; auto.
    + pose proof (anyR_moves rule f s0) as M. inversion H as [E]. rewrite E in M. exact M.
    + pose proof (classR_moves rule chars ranges f s0) as M. inversion H as [E]. rewrite E in M. exact M.
    + eapply IA; [| |
        |exact H]; auto; destruct alternatives; try discriminate; auto.
    + apply bind_ok in H as ([[[ok1 v1] f1] s1] & H1 & H). apply IE in H1; auto. inversion H; subst; auto.
    + pose proof (litR_moves rule val f s0) as M. inversion H as [E]. rewrite E in M. exact M.
    + apply bind_ok in H as ([[[ok1 v1] f1] s1] & H1 & H). apply terminal_moves in H1; auto. inversion H; subst.
      destruct H1 as ([A1 A2] & _ & C). cbn [inverted withInverted far] in *. rewrite INV in *. cbn [negb] in *.
      split; [split; cbn; [rewrite A1, INV; reflexivity|exact A2]|]. split.
      * destruct ok1; cbn [negb]; [split; reflexivity|cbn; lia].
      * rewrite INV. intros E. cbn. apply C. destruct ok1; [reflexivity|discriminate].
    + apply bind_ok in H as ([[ok1 vs] s1] & H1 & H). apply IL in H1 as (-> & A & B & C); auto.
      destruct vs as [|v0 vs]; inversion H; subst.
      * destruct (C eq_refl) as [C1 C2]. split; [auto|]. split; [auto|]. intros _. lia.
      * split; [auto|]. split; [lia|]. rewrite INV. discriminate.
    + destruct (alookup name rules) as [e|] eqn:L; [|discriminate].
      apply bind_ok in H as ([[[ok1 v1] f1] s1] & H1 & H). apply IE in H1; auto; [|eapply rule_short; eauto]. inversion H; subst; auto.
    + apply bind_ok in H as ([[[ok1 vs] f1] s1] & H1 & H). apply IS in H1 as (A & B); auto. destruct ok1; inversion H; subst.
      * split; [auto|]. split; [auto|]. rewrite INV. discriminate.
      * split; [exact A|]. split; [split; reflexivity|]. intros _. exact B.
    + inversion H; subst. split; [split; cbn; [auto|lia]|]. split; [cbn; lia|]. rewrite INV. discriminate.
    + apply bind_ok in H as ([[ok1 vs] s1] & H1 & H). apply IL in H1 as (-> & A & B & C); auto. inversion H; subst.
      split; [auto|]. split; [lia|]. rewrite INV. discriminate.
    + apply bind_ok in H as ([[[ok1 v1] f1] s1] & H1 & H). apply IE in H1; auto. inversion H; subst.
      destruct H1 as (A & B & C). split; [auto|]. split; [|rewrite INV; discriminate].
      destruct ok1; [auto|]. destruct B as [B _]. rewrite B. lia.
  - intros rule [|e es] f s ok v f' s' SH INV P H; rewrite altsR_S in H.
    + inversion H; subst. split; [apply adv_refl|]. split; [auto|]. auto.
    + cbn [forallb] in SH. apply andb_prop in SH as [S1 S2].
      apply bind_ok in H as ([[[ok1 v1] f1] s1] & H1 & H). apply IE in H1 as (A & B & C); auto. destruct ok1.
      * inversion H; subst. split; auto.
      * destruct B as [B1 B2]. rewrite INV in C. specialize (C eq_refl). destruct A as [A1 A2].
        apply IA in H as (A' & B' & C'); auto.
        -- cbn [pt rest base restoreStateR withBase restoreState inverted] in *. split; [|split].
           ++ eapply adv_trans; [split; [exact A1|exact A2]|exact A'].
           ++ destruct ok; [rewrite <- B1; lia|]. destruct B'. split; congruence.
           ++ intros E. rewrite B1 in C'. apply C'. rewrite A1. exact E.
        -- cbn. rewrite A1. exact INV.
        -- intros _. cbn. rewrite B1. exact C.
  - intros rule [|e es] f s ok v f' s' SH INV H; rewrite seqR_S in H.
    + inversion H; subst. split; [apply adv_refl|lia].
    + cbn [forallb] in SH. apply andb_prop in SH as [S1 S2].
      apply bind_ok in H as ([[[ok1 v1] f1] s1] & H1 & H). apply IE in H1 as (A & B & C); auto. destruct ok1.
      * apply bind_ok in H as ([[[ok2 vs] f2] s2] & H2 & H). apply IS in H2 as (A' & B'); auto; [|rewrite (proj1 A); auto].
        inversion H; subst. split; [eapply adv_trans; eauto|]. destruct ok; lia.
      * inversion H; subst. split; [auto|]. apply C. auto.
  - intros rule e s ok v s' SH INV H; rewrite loopR_S in H.
    apply bind_ok in H as ([[[ok1 v1] f1] s1] & H1 & H). apply IE in H1 as (A & B & C); auto. destruct ok1.
    + apply bind_ok in H as ([[ok2 vs] s2] & H2 & H). apply IL in H2 as (-> & A' & B' & _); auto; [|rewrite (proj1 A); auto].
      inversion H; subst. split; [auto|]. split; [eapply adv_trans; eauto|]. split; [lia|discriminate].
    + inversion H; subst. destruct B as [B1 B2]. split; [auto|]. split; [auto|]. rewrite B1.
      rewrite INV in C. specialize (C eq_refl). split; [lia|auto].
Qed.
End Local.

(* ---------- two texts with a common beginning ---------- *)

Section Two.
Variables (t1 t2 : text) (U : Z).
Definition common (w : text) (s1 s2 : rst) : Prop :=
  rest (base s1) = w ++ t1 /\ offset (pt s1) + Z.of_nat (length w) = U /\
  s2 = withBase (mkPst (w ++ t2) (ling (base s1)) (errs (base s1))) s1.
Definition sim (s1 s2 : rst) : Prop := exists w, common w s1 s2.

Lemma decode_local : forall w, (4 <= length w)%nat -> DecodeRune (w ++ t1) = DecodeRune (w ++ t2) /\ (1 <= snd (DecodeRune (w ++ t1)) <= 4)%nat.
Proof.
  intros w H. destruct w as [|c0 [|c1 [|c2 [|c3 w]]]]; cbn [length] in H; try lia. cbn [app].
  split; [reflexivity|]. unfold DecodeRune.
  repeat match goal with |- context [if ?x then _ else _] => destruct x end; cbn [snd]; lia.
Qed.
Lemma invalid_local : forall w, (4 <= length w)%nat -> invalid (w ++ t1) = invalid (w ++ t2).
Proof. intros w H. unfold invalid. now rewrite (proj1 (decode_local w H)). Qed.

Lemma rune_ascii : forall t, fst (DecodeRune t) < 128 -> snd (DecodeRune t) = 1%nat.
Proof.
  intros [|c t] H; [vm_compute in H; discriminate|]. unfold DecodeRune in *. cbv zeta in *. destruct (byte c <? 128) eqn:E; [reflexivity|].
  exfalso. revert H. unfold cont, RuneError.
  repeat match goal with
  | |- context [if ?x then _ else _] => lazymatch x with context [if _ then _ else _] => fail | _ => destruct x eqn:? end
  | |- context [match ?x with [] => _ | _ :: _ => _ end] => destruct x
  end; cbn [fst]; unfold inR in *; lia.
Qed.
Lemma sim_tick : forall s1 s2, sim s1 s2 -> sim (tick s1) (tick s2).
Proof. intros s1 s2 (w & A & B & ->). exists w. split; [exact A|]. split; [exact B|]. reflexivity. Qed.
Lemma sim_inv : forall b s1 s2, sim s1 s2 -> sim (withInverted b s1) (withInverted b s2).
Proof. intros b s1 s2 (w & A & B & ->). exists w. split; [exact A|]. split; [exact B|]. reflexivity. Qed.
Lemma sim_inverted : forall s1 s2, sim s1 s2 -> inverted s2 = inverted s1.
Proof. intros s1 s2 (w & A & B & ->). reflexivity. Qed.
Lemma sim_pt : forall s1 s2, sim s1 s2 -> pt s2 = pt s1.
Proof. intros s1 s2 (w & A & B & ->). reflexivity. Qed.
Lemma sim_ling : forall s1 s2, sim s1 s2 -> ling (base s2) = ling (base s1).
Proof. intros s1 s2 (w & A & B & ->). reflexivity. Qed.
Lemma sim_fail : forall b p w s1 s2, sim s1 s2 -> sim (failAt b p w s1) (failAt b p w s2).
Proof.
  intros b p w s1 s2 (x & A & B & ->). exists x. unfold common. rewrite base_failAt, pt_failAt. split; [exact A|]. split; [exact B|].
  unfold failAt. cbn [inverted far withBase]. destruct (Bool.eqb b (inverted s1)); [|reflexivity].
  destruct (_ <? _); [reflexivity|]. destruct (_ <? _); reflexivity.
Qed.
Lemma sim_restore : forall a1 a2 s1 s2, sim a1 a2 -> sim s1 s2 -> sim (restoreR a1 s1) (restoreR a2 s2).
Proof.
  intros a1 a2 s1 s2 (w & A & B & ->) (x & C & D & ->). exists w. split; [exact A|]. split; [exact B|]. reflexivity.
Qed.
Lemma sim_restoreState : forall a1 a2 s1 s2, sim a1 a2 -> sim s1 s2 -> sim (restoreStateR a1 s1) (restoreStateR a2 s2).
Proof.
  intros a1 a2 s1 s2 (w & A & B & ->) (x & C & D & ->). exists x. split; [exact C|]. split; [exact D|]. reflexivity.
Qed.
Lemma sim_state : forall l s1 s2, sim s1 s2 ->
  sim (withBase (mkPst (rest (base s1)) l (errs (base s1))) s1) (withBase (mkPst (rest (base s2)) l (errs (base s2))) s2).
Proof. intros l s1 s2 (w & A & B & ->). exists w. split; [exact A|]. split; [exact B|]. reflexivity. Qed.
Lemma sim_report : forall rule p t er s1 s2, sim s1 s2 -> sim (optReport rule p t er s1) (optReport rule p t er s2).
Proof. intros rule p t [er|] s1 s2 (w & A & B & ->); exists w; (split; [exact A|]; split; [exact B|]; reflexivity). Qed.
Lemma sim_read : forall rule s1 s2, sim s1 s2 -> offset (pt (readR rule s1)) + 4 <= U -> sim (readR rule s1) (readR rule s2).
Proof.
  intros rule s1 s2 (w & A & B & ->) L. rewrite readR_pt, A in L.
  destruct (decode_local w ltac:(lia)) as [D W]. set (k := snd (DecodeRune (w ++ t1))) in *.
  exists (skipn k w).
  assert (S1 : skipn k (w ++ t1) = skipn k w ++ t1) by (rewrite skipn_app; replace (k - length w)%nat with 0%nat by lia; reflexivity).
  assert (S2 : skipn k (w ++ t2) = skipn k w ++ t2) by (rewrite skipn_app; replace (k - length w)%nat with 0%nat by lia; reflexivity).
  assert (LK : (4 <= length (skipn k w))%nat) by (rewrite skipn_length; lia).
  pose proof (invalid_local _ LK) as V. destruct (decode_local _ LK) as [D' _].
  split; [|split].
  - rewrite base_readR. unfold read. rewrite A. fold k. rewrite S1. destruct (invalid _); reflexivity.
  - rewrite readR_pt, A. fold k. rewrite skipn_length. lia.
  - unfold readR, arrive, read. cbn [base rest withBase]. rewrite A, <- D. fold k. rewrite S1, S2, <- V.
    destruct (invalid (skipn k w ++ t1)) eqn:Ev; cbn [rest addErr]; rewrite <- V, Ev, <- D'; reflexivity.
Qed.
Lemma sim_slice : forall a1 a2 s1 s2, sim a1 a2 -> sim s1 s2 ->
  sliceFrom (rest (base a2)) (rest (base s2)) = sliceFrom (rest (base a1)) (rest (base s1)).
Proof.
  intros a1 a2 s1 s2 (w & A & B & ->) (x & C & D & ->). rewrite A, C. cbn [rest base withBase]. unfold sliceFrom. rewrite !app_length.
  replace (length w + length t2 - (length x + length t2))%nat with (length w - length x)%nat by lia.
  replace (length w + length t1 - (length x + length t1))%nat with (length w - length x)%nat by lia.
  rewrite !firstn_app. replace (length w - length x - length w)%nat with 0%nat by lia. reflexivity.
Qed.
Lemma sim_len : forall s1 s2, sim s1 s2 -> offset (pt s1) + 4 <= U ->
  DecodeRune (rest (base s2)) = DecodeRune (rest (base s1)) /\ (1 <= snd (DecodeRune (rest (base s1))) <= 4)%nat.
Proof.
  intros s1 s2 (w & A & B & ->) L. rewrite A. cbn [rest base withBase]. destruct (decode_local w ltac:(lia)) as [D W]. auto.
Qed.

(** A literal whose last rune is read within the common part. *)
Lemma sim_lit : forall rule want s1 s2 ok s1', sim s1 s2 -> litLoopR rule want s1 = (ok, s1') -> forallb (fun c => byte c <? 128) want = true ->
  (if ok then offset (pt s1') + 4 <= U else offset (pt s1) + Z.of_nat (length want) + 3 <= U) ->
  exists s2', litLoopR rule want s2 = (ok, s2') /\ sim s1' s2'.
Proof.
  intros rule. induction want as [|c want IH]; intros s1 s2 ok s1' S H W L; cbn [litLoopR] in *.
  - inversion H; subst. eauto.
  - cbn [forallb length] in *. apply andb_prop in W as [W1 W2].
    assert (P4 : offset (pt s1) + 4 <= U).
    { destruct ok; [|lia]. destruct (PegModel.rune (base s1) =? byte c) eqn:E; [|discriminate].
      pose proof (proj2 (litLoop_adv rule want (readR rule s1))) as M. rewrite H in M. cbn [snd] in M. rewrite readR_pt in M. lia. }
    destruct (sim_len _ _ S P4) as [D W4]. unfold PegModel.rune in *. rewrite D.
    destruct (fst (DecodeRune (rest (base s1))) =? byte c) eqn:E; [|inversion H; subst; eauto].
    assert (W1' : snd (DecodeRune (rest (base s1))) = 1%nat).
    { apply rune_ascii. lia. }
    assert (P5 : offset (pt (readR rule s1)) + 4 <= U).
    { rewrite readR_pt, W1'. destruct ok.
      - pose proof (proj2 (litLoop_adv rule want (readR rule s1))) as M. rewrite H in M. cbn [snd] in M. rewrite readR_pt, W1' in M. lia.
      - destruct want; [discriminate|]. cbn [length] in L. lia. }
    apply (IH _ _ _ _ (sim_read rule _ _ S P5) H W2). destruct ok; [auto|]. rewrite readR_pt, W1'. lia.
Qed.
End Two.

(** The argument of [!] looks at most eight bytes ahead. *)
Lemma lit_reads : forall rule want s, forallb (fun c => byte c <? 128) want = true ->
  offset (pt (snd (litLoopR rule want s))) <= offset (pt s) + Z.of_nat (length want).
Proof.
  intros rule. induction want as [|c want IH]; intros s W; cbn [litLoopR]; [cbn; lia|].
  cbn [forallb length] in *. apply andb_prop in W as [W1 W2].
  destruct (PegModel.rune (base s) =? byte c) eqn:E; [|cbn [snd]; lia].
  specialize (IH (readR rule s) W2). rewrite readR_pt in IH. unfold PegModel.rune in E. rewrite (rune_ascii (rest (base s))) in IH by lia. lia.
Qed.
Section Same.
Variables (t1 t2 : text) (U : Z).
Notation sim := (sim t1 t2 U).

(** What has to lie within the common part. *)
Definition within (ok : bool) (s' : rst) : Prop :=
  offset (far s') + 10 <= U /\ (ok = true -> offset (pt s') + 10 <= U).

Lemma sim_any : forall rule f s1 s2 ok v f' s1', sim s1 s2 -> anyR rule f s1 = (ok, v, f', s1') ->
  offset (pt s1) + 8 <= U -> exists s2', anyR rule f s2 = (ok, v, f', s2') /\ sim s1' s2'.
Proof using.
  intros rule f s1 s2 ok v f' s1' S H L. unfold anyR in *. destruct (sim_len _ _ _ _ _ S ltac:(lia)) as [D W].
  assert (AE : atEnd (base s2) = atEnd (base s1)) by (unfold atEnd; now rewrite D). rewrite AE, (sim_pt _ _ _ _ _ S).
  destruct (atEnd (base s1)); inversion H; subst.
  - eexists. split; [reflexivity|]. apply sim_fail; auto.
  - assert (S' : sim (readR rule s1) (readR rule s2)) by (apply sim_read; auto; rewrite readR_pt; lia).
    rewrite (sim_slice _ _ _ _ _ _ _ S S'). eexists. split; [reflexivity|]. apply sim_fail; auto.
Qed.
Lemma sim_class : forall rule a b f s1 s2 ok v f' s1', sim s1 s2 -> classR rule a b f s1 = (ok, v, f', s1') ->
  offset (pt s1) + 8 <= U -> exists s2', classR rule a b f s2 = (ok, v, f', s2') /\ sim s1' s2'.
Proof using.
  intros rule a b f s1 s2 ok v f' s1' S H L. unfold classR in *. destruct (sim_len _ _ _ _ _ S ltac:(lia)) as [D W].
  assert (AE : atEnd (base s2) = atEnd (base s1)) by (unfold atEnd; now rewrite D).
  assert (RE : PegModel.rune (base s2) = PegModel.rune (base s1)) by (unfold PegModel.rune; now rewrite D).
  rewrite AE, RE, (sim_pt _ _ _ _ _ S).
  destruct (atEnd (base s1)); [|destruct (inClass _ _ _)]; inversion H; subst.
  - eexists. split; [reflexivity|]. apply sim_fail; auto.
  - assert (S' : sim (readR rule s1) (readR rule s2)) by (apply sim_read; auto; rewrite readR_pt; lia).
    rewrite (sim_slice _ _ _ _ _ _ _ S S'). eexists. split; [reflexivity|]. apply sim_fail; auto.
  - eexists. split; [reflexivity|]. apply sim_fail; auto.
Qed.
Lemma sim_litR : forall rule k val f s1 s2 ok v f' s1', sim s1 s2 -> litR rule val f s1 = (ok, v, f', s1') -> shortLit k val = true ->
  (ok = false \/ offset (pt s1') + 4 <= U) -> offset (pt s1) + Z.of_nat k + 3 <= U ->
  exists s2', litR rule val f s2 = (ok, v, f', s2') /\ sim s1' s2'.
Proof using.
  intros rule k val f s1 s2 ok v f' s1' S H SH L K. unfold litR, shortLit in *. apply andb_prop in SH as [SH1 SH2].
  destruct (litLoopR rule (textOf val) s1) as [ok0 s0] eqn:E.
  assert (OK : ok0 = ok /\ (ok = true -> pt s1' = pt s0)).
  { destruct ok0; inversion H; subst; split; auto; [intros _; apply pt_failAt|discriminate]. }
  destruct OK as [-> PT].
  destruct (sim_lit _ _ _ _ _ _ _ _ _ S E SH2) as (s0' & E' & S').
  { destruct ok; [rewrite <- PT by auto; destruct L; [discriminate|auto]|lia]. }
  rewrite E', (sim_pt _ _ _ _ _ S). destruct ok; inversion H; subst.
  - rewrite (sim_slice _ _ _ _ _ _ _ S S'). eexists. split; [reflexivity|]. apply sim_fail; auto.
  - eexists. split; [reflexivity|]. apply sim_restore; auto. apply sim_fail; auto.
Qed.

Variable rules : grammar.
Hypothesis short_rules : shortRules rules = true.
Lemma sim_terminal : forall n rule e f s1 s2 ok v f' s1', sim s1 s2 -> terminal rules e = true ->
  exprR rules n rule e f s1 = Ok (ok, v, f', s1') -> offset (pt s1) + 10 <= U ->
  exists s2', exprR rules n rule e f s2 = Ok (ok, v, f', s2') /\ sim s1' s2'.
Proof using.
  assert (L : forall n rule v0 f s1 s2 ok v f' s1', sim s1 s2 -> shortLit 2 v0 = true ->
    exprR rules n rule (ELit v0) f s1 = Ok (ok, v, f', s1') -> offset (pt s1) + 10 <= U ->
    exists s2', exprR rules n rule (ELit v0) f s2 = Ok (ok, v, f', s2') /\ sim s1' s2').
  { intros [|n] rule v0 f s1 s2 ok v f' s1' S SH H K; [discriminate|]. rewrite exprR_S in *. cbv zeta in *. apply sim_tick in S.
    assert (E : litR rule v0 f (tick s1) = (ok, v, f', s1')) by congruence. clear H.
    destruct (sim_litR rule 2%nat v0 f _ _ _ _ _ _ S E SH) as (s2' & E' & S').
    - right. unfold litR in E. unfold shortLit in SH. apply andb_prop in SH as [SH1 SH2].
      pose proof (lit_reads rule (textOf v0) (tick s1) SH2) as R. cbn [pt tick] in R.
      destruct (litLoopR rule (textOf v0) (tick s1)) as [ok0 s0]. cbn [snd] in R.
      destruct ok0; inversion E; subst; [rewrite pt_failAt|cbn [pt restoreR withPt tick]]; lia.
    - cbn [pt tick]. lia.
    - exists s2'. rewrite E'. auto. }
  intros n rule e f s1 s2 ok v f' s1' S HT H K. destruct e; try discriminate.
  - destruct n; [discriminate|]. rewrite exprR_S in *. cbv zeta in *. apply sim_tick in S.
    assert (E : anyR rule f (tick s1) = (ok, v, f', s1')) by congruence. clear H.
    destruct (sim_any _ _ _ _ _ _ _ _ S E ltac:(cbn [pt tick]; lia)) as (s2' & E' & S'). exists s2'. rewrite E'. auto.
  - eapply L; eauto.
  - destruct n; [discriminate|]. rewrite exprR_S in *. cbv zeta in *. apply sim_tick in S. cbn [terminal] in HT.
    destruct (alookup name rules) as [e|]; [|discriminate]. destruct e; try discriminate.
    apply bind_ok in H as ([[[ok1 v1] f1] s1x] & H1 & H). destruct (L _ _ _ _ _ _ _ _ _ _ S HT H1 K) as (s2' & E' & S').
    rewrite E'. cbn [bind]. inversion H; subst. eauto.
Qed.

Lemma same : forall n,
  (forall rule e f s1 s2 ok v f' s1', sim s1 s2 -> short rules e = true -> inverted s1 = false ->
     exprR rules n rule e f s1 = Ok (ok, v, f', s1') -> within ok s1' ->
     exists s2', exprR rules n rule e f s2 = Ok (ok, v, f', s2') /\ sim s1' s2') /\
  (forall rule es f s1 s2 ok v f' s1', sim s1 s2 -> forallb (short rules) es = true -> inverted s1 = false ->
     (es = [] -> offset (pt s1) <= offset (far s1)) ->
     altsR rules n rule es f s1 = Ok (ok, v, f', s1') -> within ok s1' ->
     exists s2', altsR rules n rule es f s2 = Ok (ok, v, f', s2') /\ sim s1' s2') /\
  (forall rule es f s1 s2 ok v f' s1', sim s1 s2 -> forallb (short rules) es = true -> inverted s1 = false ->
     seqR rules n rule es f s1 = Ok (ok, v, f', s1') -> within ok s1' ->
     exists s2', seqR rules n rule es f s2 = Ok (ok, v, f', s2') /\ sim s1' s2') /\
  (forall rule e s1 s2 ok v s1', sim s1 s2 -> short rules e = true -> inverted s1 = false ->
     loopR rules n rule e s1 = Ok (ok, v, s1') -> within ok s1' ->
     exists s2', loopR rules n rule e s2 = Ok (ok, v, s2') /\ sim s1' s2').
Proof using short_rules.
  induction n as [|n (IE & IA & IS & IL)]; [repeat split; intros; discriminate|].
  destruct (all_moves rules short_rules n) as (ME & MA & MS & ML). split; [|split; [|split]].
  - intros rule e f s1 s2 ok v f' s1' S SH INV H W.
    assert (P10 : offset (pt s1) + 10 <= U).
    { destruct (proj1 (all_moves rules short_rules (Datatypes.S n)) _ _ _ _ _ _ _ _ SH INV H) as (_ & B & C).
      rewrite INV in C. destruct W as [W1 W2]. destruct ok; [specialize (W2 eq_refl)|specialize (C eq_refl)]; lia. }
    rewrite exprR_S in *. cbv zeta in *. apply sim_tick in S. change (inverted (tick s1) = false) in INV.
    change (offset (pt (tick s1)) + 10 <= U) in P10.
    set (x1 := tick s1) in *. set (x2 := tick s2) in *. clearbody x1 x2. clear s1 s2. destruct e; cbn [short] in SH.
    + apply bind_ok in H as ([[[ok1 v1] f1] y1] & H1 & H).
      assert (W1 : within ok1 y1).
      { destruct ok1; [|inversion H; subst; exact W]. apply bind_ok in H as ([v' er] & H2 & H). inversion H; subst. destruct er; exact W. }
      destruct (IE _ _ _ _ _ _ _ _ _ S SH INV H1 W1) as (y2 & E2 & S2). rewrite E2. cbn [bind].
      destruct ok1; [|inversion H; subst; eauto]. rewrite (sim_slice _ _ _ _ _ _ _ S S2), (sim_ling _ _ _ _ _ S2), (sim_pt _ _ _ _ _ S).
      apply bind_ok in H as ([v' er] & H2 & H). rewrite H2. cbn [bind]. inversion H; subst. eexists. split; [reflexivity|]. apply sim_report; auto.
    + assert (E : anyR rule f x1 = (ok, v, f', s1')) by congruence.
      destruct (sim_any _ _ _ _ _ _ _ _ S E ltac:(lia)) as (s2' & E' & S'). exists s2'. rewrite E'. auto.
    + assert (E : classR rule chars ranges f x1 = (ok, v, f', s1')) by congruence.
      destruct (sim_class _ _ _ _ _ _ _ _ _ _ S E ltac:(lia)) as (s2' & E' & S'). exists s2'. rewrite E'. auto.
    + eapply IA; eauto; destruct alternatives; auto; discriminate.
    + apply bind_ok in H as ([[[ok1 v1] f1] y1] & H1 & H). inversion H; subst.
      destruct (IE _ _ _ _ _ _ _ _ _ S SH INV H1 W) as (y2 & E2 & S2). rewrite E2. cbn [bind]. eauto.
    + assert (E : litR rule val f x1 = (ok, v, f', s1')) by congruence.
      destruct (sim_litR _ 7%nat _ _ _ _ _ _ _ _ S E SH) as (s2' & E' & S').
      * destruct ok; [right|left; reflexivity]. destruct W as [_ W]. specialize (W eq_refl). lia.
      * lia.
      * exists s2'. rewrite E'. auto.
    + apply bind_ok in H as ([[[ok1 v1] f1] y1] & H1 & H). inversion H; subst.
      destruct (sim_terminal _ _ _ _ _ _ _ _ _ _ (sim_inv _ _ _ (negb (inverted x1)) _ _ S) SH H1 P10) as (y2 & E2 & S2).
      rewrite (sim_inverted _ _ _ _ _ S), E2. cbn [bind]. eexists. split; [reflexivity|].
      rewrite (sim_inverted _ _ _ _ _ S2). apply sim_restore; auto. apply sim_restoreState; auto. apply sim_inv; auto.
    + apply bind_ok in H as ([[ok1 vs] y1] & H1 & H).
      pose proof (ML _ _ _ _ _ _ SH INV H1) as (-> & _ & B & _).
      assert (W1 : within true y1).
      { destruct vs; inversion H; subst; auto. destruct W as [W _]. split; [auto|]. intros _. lia. }
      destruct (IL _ _ _ _ _ _ _ S SH INV H1 W1) as (y2 & E2 & S2). rewrite E2. cbn [bind]. destruct vs; inversion H; subst; eauto.
    + destruct (alookup name rules) as [e|] eqn:L; [|discriminate].
      apply bind_ok in H as ([[[ok1 v1] f1] y1] & H1 & H). inversion H; subst.
      destruct (IE _ _ _ _ _ _ _ _ _ S (rule_short _ short_rules _ _ L) INV H1 W) as (y2 & E2 & S2). rewrite E2. cbn [bind]. eauto.
    + apply bind_ok in H as ([[[ok1 vs] f1] y1] & H1 & H).
      assert (W1 : within ok1 y1).
      { destruct ok1; inversion H; subst; auto. destruct W as [W _]. split; [exact W|discriminate]. }
      destruct (IS _ _ _ _ _ _ _ _ _ S SH INV H1 W1) as (y2 & E2 & S2). rewrite E2. cbn [bind].
      destruct ok1; inversion H; subst; [eauto|]. eexists. split; [reflexivity|]. apply sim_restore; auto. apply sim_restoreState; auto.
    + inversion H; subst. eexists. split; [reflexivity|]. rewrite (sim_ling _ _ _ _ _ S). apply sim_state; auto.
    + apply bind_ok in H as ([[ok1 vs] y1] & H1 & H). inversion H; subst.
      pose proof (ML _ _ _ _ _ _ SH INV H1) as (-> & _).
      destruct (IL _ _ _ _ _ _ _ S SH INV H1 W) as (y2 & E2 & S2). rewrite E2. cbn [bind]. eauto.
    + apply bind_ok in H as ([[[ok1 v1] f1] y1] & H1 & H). inversion H; subst.
      assert (W1 : within ok1 s1') by (destruct W as [W1 W2]; split; auto).
      destruct (IE _ _ _ _ _ _ _ _ _ S SH INV H1 W1) as (y2 & E2 & S2). rewrite E2. cbn [bind]. eauto.
  - intros rule [|e es] f s1 s2 ok v f' s1' S SH INV P H W; rewrite altsR_S in *.
    + inversion H; subst. eauto.
    + cbn [forallb] in SH. apply andb_prop in SH as [SH1 SH2].
      apply bind_ok in H as ([[[ok1 v1] f1] y1] & H1 & H). pose proof (ME _ _ _ _ _ _ _ _ SH1 INV H1) as (A & B & C).
      destruct ok1.
      * inversion H; subst. destruct (IE _ _ _ _ _ _ _ _ _ S SH1 INV H1 W) as (y2 & E2 & S2). rewrite E2. cbn [bind]. eauto.
      * destruct B as [B1 B2]. rewrite INV in C. specialize (C eq_refl). destruct A as [A1 A2].
        assert (INV' : inverted (restoreStateR s1 y1) = false) by (cbn; congruence).
        assert (P' : es = [] -> offset (pt (restoreStateR s1 y1)) <= offset (far (restoreStateR s1 y1))) by (intros _; cbn; rewrite B1; exact C).
        assert (W1 : within false y1).
        { split; [|discriminate]. destruct W as [W _]. destruct (MA _ _ _ _ _ _ _ _ SH2 INV' P' H) as ([_ M] & _). cbn in M. lia. }
        destruct (IE _ _ _ _ _ _ _ _ _ S SH1 INV H1 W1) as (y2 & E2 & S2). rewrite E2. cbn [bind].
        eapply IA; eauto. apply sim_restoreState; auto.
  - intros rule [|e es] f s1 s2 ok v f' s1' S SH INV H W; rewrite seqR_S in *.
    + inversion H; subst. eauto.
    + cbn [forallb] in SH. apply andb_prop in SH as [SH1 SH2].
      apply bind_ok in H as ([[[ok1 v1] f1] y1] & H1 & H). pose proof (ME _ _ _ _ _ _ _ _ SH1 INV H1) as (A & B & C).
      destruct ok1.
      * apply bind_ok in H as ([[[ok2 vs] f2] z1] & H2 & H). inversion H; subst.
        assert (INV' : inverted y1 = false) by (rewrite (proj1 A); exact INV).
        destruct (MS _ _ _ _ _ _ _ _ SH2 INV' H2) as ([_ A'] & B').
        assert (W1 : within true y1).
        { destruct W as [W1 W2]. split; [lia|]. intros _. destruct ok; [specialize (W2 eq_refl)|]; lia. }
        destruct (IE _ _ _ _ _ _ _ _ _ S SH1 INV H1 W1) as (y2 & E2 & S2). rewrite E2. cbn [bind].
        destruct (IS _ _ _ _ _ _ _ _ _ S2 SH2 INV' H2 W) as (z2 & E3 & S3). rewrite E3. cbn [bind]. eauto.
      * inversion H; subst. destruct (IE _ _ _ _ _ _ _ _ _ S SH1 INV H1 W) as (y2 & E2 & S2). rewrite E2. cbn [bind]. eauto.
  - intros rule e s1 s2 ok v s1' S SH INV H W; rewrite loopR_S in *.
    apply bind_ok in H as ([[[ok1 v1] f1] y1] & H1 & H). pose proof (ME _ _ _ _ _ _ _ _ SH INV H1) as (A & B & C).
    destruct ok1.
    + apply bind_ok in H as ([[ok2 vs] z1] & H2 & H). inversion H; subst.
      assert (INV' : inverted y1 = false) by (rewrite (proj1 A); exact INV).
      destruct (ML _ _ _ _ _ _ SH INV' H2) as (-> & [_ A'] & B' & _).
      assert (W1 : within true y1).
      { destruct W as [W1 W2]. split; [lia|]. intros _. specialize (W2 eq_refl). lia. }
      destruct (IE _ _ _ _ _ _ _ _ _ S SH INV H1 W1) as (y2 & E2 & S2). rewrite E2. cbn [bind].
      destruct (IL _ _ _ _ _ _ _ S2 SH INV' H2 W) as (z2 & E3 & S3). rewrite E3. cbn [bind]. eauto.
    + inversion H; subst. assert (W1 : within false s1') by (destruct W as [W1 W2]; split; [auto|discriminate]).
      destruct (IE _ _ _ _ _ _ _ _ _ S SH INV H1 W1) as (y2 & E2 & S2). rewrite E2. cbn [bind]. eauto.
Qed.
End Same.

(* ---------- the top ---------- *)

(** Only the report that nothing matched says what was expected. *)
Definition plain (s : rst) : Prop := forall r, In r (reports s) -> rexpected r = [].
Lemma plain_expr : forall rules n rule e f s ok v f' s', plain s -> exprR rules n rule e f s = Ok (ok, v, f', s') -> plain s'.
Proof.
  intros rules n rule e f s ok v f' s'. apply expr_keeps; unfold plain.
  - intros x H. exact H.
  - intros b x H. exact H.
  - intros x0 x _ H. exact H.
  - intros l x H. exact H.
  - intros r x H E. unfold readR, arrive. destruct (invalid _); [|exact H]. cbn [reports addReport withPt withBase].
    intros q J. apply in_app_iff in J as [J|[<-|[]]]; auto.
  - intros b x0 w x _ H. unfold failAt. destruct (Bool.eqb b (inverted x)); auto. destruct (_ <? _); auto. destruct (_ <? _); auto.
  - intros x0 r t er x _ H. cbn [reports addReport withBase]. intros q J. apply in_app_iff in J as [J|[<-|[]]]; auto.
Qed.
Lemma plain_start : forall data, plain (startR data).
Proof. intros data r J. unfold startR, arrive in J. destruct (invalid _); cbn in J; [destruct J as [<-|[]]; reflexivity|destruct J]. Qed.

Lemma start_inverted : forall data, inverted (startR data) = false.
Proof. intros. unfold startR, arrive. destruct (invalid _); reflexivity. Qed.
Lemma start_sim : forall u t1 t2, (4 <= length u)%nat -> sim t1 t2 (Z.of_nat (length u)) (startR (u ++ t1)) (startR (u ++ t2)).
Proof.
  intros u t1 t2 L. exists u. pose proof (invalid_local t1 t2 u L) as V. destruct (decode_local t1 t2 u L) as [D _].
  split; [|split].
  - rewrite base_start. destruct (invalid _); reflexivity.
  - assert (O : forall data, offset (pt (startR data)) = 0).
    { intros data. unfold startR, arrive. destruct (invalid (rest _)); cbn [pt addReport withPt]; unfold next; destruct (_ =? 10); reflexivity. }
    rewrite O. reflexivity.
  - unfold startR, arrive. cbn [base]. rewrite <- V. destruct (invalid (u ++ t1)) eqn:E; cbn [rest addErr]; rewrite <- V, E, <- D; reflexivity.
Qed.

Lemma local : forall order fn u t1 t2 r, answers order fn (u ++ t1) (RErrors [r]) -> rexpected r <> [] ->
  offset (rpos r) + 10 <= Z.of_nat (length u) -> answers order fn (u ++ t2) (RErrors [r]).
Proof.
  intros order fn u t1 t2 r A X L. destruct (answer order fn (u ++ t1)) as (ok & v & s & n & H & P & A' & _).
  pose proof (answers_fun _ _ _ _ _ A A') as E. clear A A'.
  pose proof (H n (le_n _)) as Hn.
  assert (PL : plain s) by (eapply plain_expr; [apply plain_start|exact Hn]).
  assert (NM : ok = false /\ reports s = [] /\ r = noMatch order s).
  { destruct (dedupe fn [] (if ok then reports s else match reports s with [] => [noMatch order s] | l => l end)) as [|r0 l0] eqn:D; [discriminate|].
    inversion E; subst r0 l0. assert (J : In r (if ok then reports s else match reports s with [] => [noMatch order s] | l => l end)).
    { apply (dedupe_incl fn _ []). rewrite D. left. reflexivity. }
    destruct ok; [exfalso; apply X; auto|]. destruct (reports s) as [|r1 l1] eqn:Er; [|exfalso; apply X; apply PL; rewrite Er; exact J].
    destruct J as [<-|[]]. auto. }
  destruct NM as (-> & RS & ->). cbn [rpos noMatch] in L.
  pose proof (report_placed order fn (u ++ t1) [noMatch order s] (noMatch order s)) as RP.
  assert (F0 : 0 <= offset (far s)) by (destruct P as [_ PF _]; apply at_range in PF; lia).
  assert (S0 : sim t1 t2 (Z.of_nat (length u)) (startR (u ++ t1)) (startR (u ++ t2))) by (apply start_sim; lia).
  exists n. intros m Lm. unfold parseR.
  destruct (proj1 (same t1 t2 (Z.of_nat (length u)) g g_short m) "" (ERule "File") [] _ _ _ _ _ _ S0 eq_refl (start_inverted _) (H m Lm)) as (s2 & E2 & w & _ & _ & ->).
  - split; [exact L|discriminate].
  - rewrite E2. cbn [reports withBase]. rewrite RS. cbn [dedupe existsb]. reflexivity.
Qed.
