(** How many expressions the engine evaluates, bounded by an analysis of the
    expressions of a grammar: the rules get a table of bounds, and every body must
    stay within the bound of its rule. *)
From Coq Require Import ZArith String Ascii List Bool Lia ZifyBool ZifyNat.
From Verif Require Import Base Ast PegModel PegGrammar PegEngine PegRunes PegReport PegReportProofs PegRestore PegExp.
Import ListNotations.
Open Scope string_scope.
Open Scope list_scope.
Open Scope Z_scope.

Definition spent (s s' : rst) : Z := exprCnt s' - exprCnt s.

Section Spend.
  Variable rules : grammar.
  (** What is known about the text that an expression takes. *)
  Variable Info : Type.
  Variable info : expr -> Info.
  Variable eats : Info -> text -> text -> Prop.
  (** Bounds on the number of evaluations at a text. *)
  Variable Cost : Type.
  Variable worth : Cost -> text -> Z -> Prop.
  Variable none one : Cost.
  Variable add : Cost -> Cost -> Cost.
  Variable after : Info -> Cost -> Cost.
  Variable again : Info -> Cost -> Cost.
  Variable fine : Info -> Cost -> bool.
  Variable table : string -> Cost.

  Fixpoint cost (e : expr) : Cost :=
    match e with
    | EAct _ e | ELabel _ e | ENot e | EOpt e => add one (cost e)
    | EAny | EClass _ _ | ELit _ | EState _ => one
    | EChoice es => add one ((fix go es := match es with [] => none | e :: es => add (cost e) (go es) end) es)
    | ESeq es => add one ((fix go es := match es with [] => none | e :: es => add (cost e) (after (info e) (go es)) end) es)
    | EPlus e | EStar e => add one (again (info e) (cost e))
    | ERule name => add one (table name)
    end.
  Fixpoint costAlts (es : list expr) : Cost := match es with [] => none | e :: es => add (cost e) (costAlts es) end.
  Fixpoint costSeq (es : list expr) : Cost := match es with [] => none | e :: es => add (cost e) (after (info e) (costSeq es)) end.
  (** The loops of an expression make progress. *)
  Fixpoint looping (e : expr) : bool :=
    match e with
    | EAct _ e | ELabel _ e | ENot e | EOpt e => looping e
    | EAny | EClass _ _ | ELit _ | EState _ | ERule _ => true
    | EChoice es | ESeq es => (fix go es := match es with [] => true | e :: es => looping e && go es end) es
    | EPlus e | EStar e => looping e && fine (info e) (cost e)
    end.
  Fixpoint loopings (es : list expr) : bool := match es with [] => true | e :: es => looping e && loopings es end.

  Hypothesis eats_sound : forall n rule e f s v f' s', exprR rules n rule e f s = Ok (true, v, f', s') ->
    eats (info e) (rest (base s)) (rest (base s')).
  Hypothesis worth_none : forall x, worth none x 0.
  Hypothesis worth_one : forall x, worth one x 1.
  Hypothesis worth_add : forall a b x c d, worth a x c -> worth b x d -> worth (add a b) x (c + d).
  Hypothesis worth_left : forall a b x c, worth a x c -> worth (add a b) x c.
  Hypothesis worth_after : forall i a x x' c, eats i x x' -> worth a x' c -> worth (after i a) x c.
  Hypothesis worth_once : forall i a x c, fine i a = true -> worth a x c -> worth (again i a) x c.
  Hypothesis worth_again : forall i a x x' c d, fine i a = true -> worth a x c -> eats i x x' -> worth (again i a) x' d ->
    worth (again i a) x (c + d).
  Hypothesis table_sound : forall name e, alookup name rules = Some e ->
    looping e = true /\ forall x c, worth (cost e) x c -> worth (table name) x c.

  Let kept (s s' : rst) : Prop := rest (base s') = rest (base s).

  Lemma failed_kept : forall n rule e f s v f' s', exprR rules n rule e f s = Ok (false, v, f', s') -> kept s s'.
  Proof.
    intros n rule e f s v f' s' E. pose proof (expr_erases rules n rule e f s) as R. rewrite E in R. cbn in R. symmetry in R.
    destruct (keeps_all rules n) as [K _]. destruct (K _ _ _ _ _ _ _ R) as [_ U]. apply U. reflexivity.
  Qed.
  Lemma cnt_optReport : forall rule p t e s, exprCnt (optReport rule p t e s) = exprCnt s.
  Proof. intros rule p t [e|] s; reflexivity. Qed.

  Definition spendsE (n : nat) : Prop := forall rule e f s ok v f' s', looping e = true ->
    exprR rules n rule e f s = Ok (ok, v, f', s') -> worth (cost e) (rest (base s)) (spent s s').
  Definition spendsA (n : nat) : Prop := forall rule es f s ok v f' s', loopings es = true ->
    altsR rules n rule es f s = Ok (ok, v, f', s') -> worth (costAlts es) (rest (base s)) (spent s s').
  Definition spendsS (n : nat) : Prop := forall rule es f s ok v f' s', loopings es = true ->
    seqR rules n rule es f s = Ok (ok, v, f', s') -> worth (costSeq es) (rest (base s)) (spent s s').
  Definition spendsL (n : nat) : Prop := forall rule e s ok vs s', looping e = true -> fine (info e) (cost e) = true ->
    loopR rules n rule e s = Ok (ok, vs, s') -> worth (again (info e) (cost e)) (rest (base s)) (spent s s').

  Lemma spent_tick : forall s s', spent s s' = 1 + spent (tick s) s'.
  Proof. intros. unfold spent. cbn [exprCnt tick]. lia. Qed.
  Lemma spent_trans : forall a b c, spent a c = spent a b + spent b c.
  Proof. intros. unfold spent. lia. Qed.

  Lemma spends_all : forall n, spendsE n /\ spendsA n /\ spendsS n /\ spendsL n.
  Proof.
    induction n as [|n (IE & IA & IS & IL)]; [split; [|split; [|split]]; intros ? **; discriminate|].
    split; [|split; [|split]].
    - intros rule e f s ok v f' s' LO H. rewrite exprR_S in H. cbv zeta in H.
      assert (ONE : forall s', exprCnt s' = exprCnt (tick s) -> worth one (rest (base s)) (spent s s')).
      { intros t Q. unfold spent. rewrite Q. cbn [exprCnt tick]. replace (exprCnt s + 1 - exprCnt s) with 1 by lia. apply worth_one. }
      destruct e as [run e| |cs rs|alts|l e|w|e|e|name|es|run|e|e]; cbn [looping] in LO; cbn [cost].
      + apply bind_ok in H as ([[[ok1 v1] f1] s1] & E & H). destruct ok1.
        * cbv zeta in H. apply bind_ok in H as ([v2 er] & _ & H). injection H as _ _ _ <-.
          rewrite spent_tick. apply worth_add; [apply worth_one|]. unfold spent. rewrite cnt_optReport.
          apply (IE _ _ _ _ _ _ _ _ LO E).
        * injection H as _ _ _ <-. rewrite spent_tick. apply worth_add; [apply worth_one|]. apply (IE _ _ _ _ _ _ _ _ LO E).
      + apply ONE. injection H as H. unfold anyR in H. destruct (atEnd _); injection H as _ _ _ <-; rewrite cnt_failAt; auto.
        apply cnt_readR.
      + apply ONE. injection H as H. unfold classR in H. destruct (atEnd _); [|destruct (inClass _ _ _)]; injection H as _ _ _ <-; rewrite cnt_failAt; auto.
        apply cnt_readR.
      + rewrite spent_tick. apply worth_add; [apply worth_one|]. apply (IA _ _ _ _ _ _ _ _ LO H).
      + apply bind_ok in H as ([[[ok1 v1] f1] s1] & E & H). injection H as _ _ _ <-.
        rewrite spent_tick. apply worth_add; [apply worth_one|]. apply (IE _ _ _ _ _ _ _ _ LO E).
      + apply ONE. injection H as H. unfold litR in H. pose proof (cnt_lit rule (textOf w) (tick s)) as Q.
        destruct (litLoopR rule (textOf w) (tick s)) as [[] s1]; injection H as _ _ _ <-; cbn [snd] in Q.
        * rewrite cnt_failAt. exact Q.
        * unfold restoreR. cbn [exprCnt withPt withBase]. rewrite cnt_failAt. exact Q.
      + apply bind_ok in H as ([[[ok1 v1] f1] s1] & E & H). injection H as _ _ _ <-.
        rewrite spent_tick. apply worth_add; [apply worth_one|]. exact (IE _ _ _ _ _ _ _ _ LO E).
      + apply bind_ok in H as ([[ok1 vs] s1] & E & H). apply andb_prop in LO as [LO FI].
        assert (s1 = s') as -> by (destruct vs; congruence).
        rewrite spent_tick. apply worth_add; [apply worth_one|]. exact (IL _ _ _ _ _ _ LO FI E).
      + destruct (alookup name rules) as [e|] eqn:A.
        * apply bind_ok in H as ([[[ok1 v1] f1] s1] & E & H). injection H as _ _ _ <-.
          rewrite spent_tick. apply worth_add; [apply worth_one|]. destruct (table_sound _ _ A) as [LE TS]. apply TS.
          exact (IE _ _ _ _ _ _ _ _ LE E).
        * injection H as _ _ _ <-. apply worth_left. apply ONE. reflexivity.
      + apply bind_ok in H as ([[[ok1 v1] f1] s1] & E & H).
        assert (Q : exprCnt s' = exprCnt s1) by (destruct ok1; injection H as _ _ _ <-; reflexivity).
        rewrite spent_tick. apply worth_add; [apply worth_one|]. unfold spent. rewrite Q. exact (IS _ _ _ _ _ _ _ _ LO E).
      + apply ONE. injection H as _ _ _ <-. reflexivity.
      + apply bind_ok in H as ([[ok1 vs] s1] & E & H). apply andb_prop in LO as [LO FI]. injection H as _ _ _ <-.
        rewrite spent_tick. apply worth_add; [apply worth_one|]. exact (IL _ _ _ _ _ _ LO FI E).
      + apply bind_ok in H as ([[[ok1 v1] f1] s1] & E & H). injection H as _ _ _ <-.
        rewrite spent_tick. apply worth_add; [apply worth_one|]. exact (IE _ _ _ _ _ _ _ _ LO E).
    - intros rule es f s ok v f' s' LO H. rewrite altsR_S in H. destruct es as [|e es]; cbn [costAlts].
      + injection H as _ _ _ <-. unfold spent. rewrite Z.sub_diag. apply worth_none.
      + cbn [loopings] in LO. apply andb_prop in LO as [LO LOS]. apply bind_ok in H as ([[[ok1 v1] f1] s1] & E & H).
        destruct ok1.
        * injection H as _ _ _ <-. apply worth_left. exact (IE _ _ _ _ _ _ _ _ LO E).
        * rewrite (spent_trans s s1 s'). apply worth_add; [exact (IE _ _ _ _ _ _ _ _ LO E)|].
          pose proof (IA _ _ _ _ _ _ _ _ LOS H) as W. cbn [restoreStateR base withBase restoreState rest] in W.
          rewrite <- (failed_kept _ _ _ _ _ _ _ _ E). exact W.
    - intros rule es f s ok v f' s' LO H. rewrite seqR_S in H. destruct es as [|e es]; cbn [costSeq].
      + injection H as _ _ _ <-. unfold spent. rewrite Z.sub_diag. apply worth_none.
      + cbn [loopings] in LO. apply andb_prop in LO as [LO LOS]. apply bind_ok in H as ([[[ok1 v1] f1] s1] & E & H).
        destruct ok1.
        * apply bind_ok in H as ([[[ok2 v2] f2] s2] & E2 & H). injection H as _ _ _ <-.
          rewrite (spent_trans s s1 s2). apply worth_add; [exact (IE _ _ _ _ _ _ _ _ LO E)|].
          eapply worth_after; [exact (eats_sound _ _ _ _ _ _ _ _ E)|]. exact (IS _ _ _ _ _ _ _ _ LOS E2).
        * injection H as _ _ _ <-. apply worth_left. exact (IE _ _ _ _ _ _ _ _ LO E).
    - intros rule e s ok vs s' LO FI H. rewrite loopR_S in H. apply bind_ok in H as ([[[ok1 v1] f1] s1] & E & H).
      destruct ok1.
      + apply bind_ok in H as ([[ok2 v2] s2] & E2 & H). injection H as _ _ <-. rewrite (spent_trans s s1 s2).
        eapply worth_again; [exact FI|exact (IE _ _ _ _ _ _ _ _ LO E)|exact (eats_sound _ _ _ _ _ _ _ _ E)|].
        exact (IL _ _ _ _ _ _ LO FI E2).
      + injection H as _ _ <-. apply worth_once; [exact FI|]. exact (IE _ _ _ _ _ _ _ _ LO E).
  Qed.
  Lemma spends : forall n rule e f s ok v f' s', looping e = true ->
    exprR rules n rule e f s = Ok (ok, v, f', s') -> worth (cost e) (rest (base s)) (spent s s').
  Proof. intros n. apply (spends_all n). Qed.
End Spend.

(* ---------- what an expression takes at least ---------- *)

Section Least.
  Variable rules : grammar.
  Variable table : string -> nat.
  Fixpoint least (e : expr) : nat :=
    match e with
    | EAct _ e | ELabel _ e | EPlus e => least e
    | EAny | EClass _ _ => 1%nat
    | ELit w => String.length w
    | ENot _ | EOpt _ | EStar _ | EState _ => 0%nat
    | EChoice es => (fix go es := match es with [] => 1000%nat | e :: es => Nat.min (least e) (go es) end) es
    | ESeq es => (fix go es := match es with [] => 0%nat | e :: es => (least e + go es)%nat end) es
    | ERule name => table name
    end.
  Fixpoint leastAlts (es : list expr) : nat := match es with [] => 1000%nat | e :: es => Nat.min (least e) (leastAlts es) end.
  Fixpoint leastSeq (es : list expr) : nat := match es with [] => 0%nat | e :: es => (least e + leastSeq es)%nat end.
  Hypothesis table_least : forall name e, alookup name rules = Some e -> (table name <= least e)%nat.

  (** [x'] is what is left of [x] after at least [k] bytes. *)
  Definition takesAtLeast (k : nat) (x x' : text) : Prop := (length x' + k <= length x)%nat.

  Let left (s : pst) : nat := length (rest s).
  Definition leastX (n : nat) : Prop := forall e f s ok v f' s', parseExpr rules n e f s = Ok (ok, v, f', s') ->
    (left s' <= left s)%nat /\ (ok = true -> (left s' + least e <= left s)%nat).
  Definition leastA (n : nat) : Prop := forall es f s ok v f' s', parseAlts rules n es f s = Ok (ok, v, f', s') ->
    (left s' <= left s)%nat /\ (ok = true -> (left s' + leastAlts es <= left s)%nat).
  Definition leastS (n : nat) : Prop := forall es f s ok v f' s', parseSeq rules n es f s = Ok (ok, v, f', s') ->
    (left s' <= left s)%nat /\ (ok = true -> (left s' + leastSeq es <= left s)%nat).
  Definition leastL (n : nat) : Prop := forall e s ok vs s', parseLoop rules n e s = Ok (ok, vs, s') ->
    (left s' <= left s)%nat /\ (vs <> [] -> (left s' + least e <= left s)%nat).

  Lemma left_read : forall s, (left (read s) <= left s)%nat.
  Proof. intros s. unfold left. rewrite PegRunes.read_rest, skipn_length. lia. Qed.
  Lemma left_read1 : forall s, atEnd s = false -> (left (read s) + 1 <= left s)%nat.
  Proof.
    intros s A. unfold left. rewrite PegRunes.read_rest, skipn_length.
    assert (N : rest s <> []) by (intros Q; unfold atEnd in A; rewrite Q in A; vm_compute in A; discriminate).
    pose proof (width _ N). lia.
  Qed.
  Lemma left_lit : forall w s, (left (snd (litLoop w s)) <= left s)%nat /\
    (fst (litLoop w s) = true -> (left (snd (litLoop w s)) + length w <= left s)%nat).
  Proof.
    induction w as [|c w IH]; intros s; cbn [litLoop]; [cbn; lia|].
    destruct (rune s =? byte c) eqn:R; [|cbn; split; [lia|discriminate]].
    pose proof (left_read1 s (lit_notEnd _ _ R)). destruct (IH (read s)) as [A B]. split; [lia|]. intros T. specialize (B T). cbn [length]. lia.
  Qed.
  Lemma textOf_length : forall w, length (textOf w) = String.length w.
  Proof. induction w; cbn; auto. Qed.

  Lemma least_all : forall n, leastX n /\ leastA n /\ leastS n /\ leastL n.
  Proof.
    induction n as [|n (IE & IA & IS & IL)]; [split; [|split; [|split]]; intros ? **; discriminate|].
    split; [|split; [|split]].
    - intros e f s ok v f' s' H. rewrite expr_S in H.
      destruct e as [run e| |cs rs|alts|l e|w|e|e|name|es|run|e|e]; cbn [least].
      + apply bind_ok in H as ([[[ok1 v1] f1] s1] & E & H). destruct (IE _ _ _ _ _ _ _ E) as [A B]. destruct ok1.
        * cbv zeta in H. apply bind_ok in H as ([v2 [er|]] & _ & H); injection H as _ _ _ <-; split; auto.
        * injection H as <- _ _ <-. split; [auto|discriminate].
      + injection H as H. unfold parseAny in H. destruct (atEnd s) eqn:AE; injection H as <- _ _ <-; [split; [lia|discriminate]|].
        pose proof (left_read1 s AE). lia.
      + injection H as H. unfold parseClass in H. destruct (atEnd s) eqn:AE; [|destruct (inClass _ _ _)]; injection H as <- _ _ <-; try (split; [lia|discriminate]).
        pose proof (left_read1 s AE). lia.
      + exact (IA _ _ _ _ _ _ _ H).
      + apply bind_ok in H as ([[[ok1 v1] f1] s1] & E & H). injection H as <- _ _ <-. exact (IE _ _ _ _ _ _ _ E).
      + injection H as H. unfold parseLit in H. pose proof (left_lit (textOf w) s) as Q. rewrite textOf_length in Q.
        destruct (litLoop (textOf w) s) as [[] s1]; injection H as <- _ _ <-; cbn [fst snd] in Q; [split; [lia|intros _; apply Q; reflexivity]|].
        split; [unfold left; cbn [restore rest]; lia|discriminate].
      + apply bind_ok in H as ([[[ok1 v1] f1] s1] & E & H). injection H as <- _ _ <-. unfold left. cbn [restore restoreState rest]. lia.
      + apply bind_ok in H as ([[ok1 vs] s1] & E & H). destruct (IL _ _ _ _ _ E) as [A B].
        destruct vs; injection H as <- _ _ <-; (split; [auto|]); [discriminate|]. intros _. apply B. discriminate.
      + destruct (alookup name rules) as [e|] eqn:A.
        * apply bind_ok in H as ([[[ok1 v1] f1] s1] & E & H). injection H as <- _ _ <-. destruct (IE _ _ _ _ _ _ _ E) as [P Q].
          split; [auto|]. intros T. specialize (Q T). pose proof (table_least _ _ A). lia.
        * injection H as <- _ _ <-. split; [unfold left; cbn; lia|discriminate].
      + apply bind_ok in H as ([[[ok1 v1] f1] s1] & E & H). destruct (IS _ _ _ _ _ _ _ E) as [A B].
        destruct ok1; injection H as <- _ _ <-; [split; auto|]. split; [unfold left; cbn; lia|discriminate].
      + injection H as <- _ _ <-. unfold left; cbn; lia.
      + apply bind_ok in H as ([[ok1 vs] s1] & E & H). destruct (IL _ _ _ _ _ E) as [A B]. injection H as <- _ _ <-. lia.
      + apply bind_ok in H as ([[[ok1 v1] f1] s1] & E & H). injection H as <- _ _ <-. destruct (IE _ _ _ _ _ _ _ E). lia.
    - intros es f s ok v f' s' H. rewrite alts_S in H. destruct es as [|e es].
      + injection H as <- _ _ <-. split; [lia|discriminate].
      + apply bind_ok in H as ([[[ok1 v1] f1] s1] & E & H). destruct (IE _ _ _ _ _ _ _ E) as [A B]. cbn [leastAlts]. destruct ok1.
        * injection H as <- _ _ <-. split; [auto|]. intros T. specialize (B T). lia.
        * destruct (IA _ _ _ _ _ _ _ H) as [P Q]. cbn [restoreState left rest] in P, Q. unfold left in *. cbn [restoreState rest] in P, Q. split; [lia|]. intros T. specialize (Q T). lia.
    - intros es f s ok v f' s' H. rewrite seq_S in H. destruct es as [|e es].
      + injection H as <- _ _ <-. cbn. lia.
      + apply bind_ok in H as ([[[ok1 v1] f1] s1] & E & H). destruct (IE _ _ _ _ _ _ _ E) as [A B]. cbn [leastSeq]. destruct ok1.
        * apply bind_ok in H as ([[[ok2 v2] f2] s2] & E2 & H). injection H as <- _ _ <-. destruct (IS _ _ _ _ _ _ _ E2) as [P Q].
          specialize (B eq_refl). split; [lia|]. intros T. specialize (Q T). lia.
        * injection H as <- _ _ <-. split; [auto|discriminate].
    - intros e s ok vs s' H. rewrite loop_S in H. apply bind_ok in H as ([[[ok1 v1] f1] s1] & E & H). destruct (IE _ _ _ _ _ _ _ E) as [A B].
      destruct ok1.
      + apply bind_ok in H as ([[ok2 v2] s2] & E2 & H). injection H as _ <- <-. destruct (IL _ _ _ _ _ E2) as [P _].
        specialize (B eq_refl). split; [lia|]. intros _. lia.
      + injection H as _ <- <-. split; [auto|]. intros N. destruct (N eq_refl).
  Qed.
  Lemma least_sound : forall n rule e f s v f' s', exprR rules n rule e f s = Ok (true, v, f', s') ->
    takesAtLeast (least e) (rest (base s)) (rest (base s')).
  Proof.
    intros n rule e f s v f' s' E. pose proof (expr_erases rules n rule e f s) as R. rewrite E in R. cbn in R. symmetry in R.
    destruct (least_all n) as [K _]. destruct (K _ _ _ _ _ _ _ R) as [_ U]. apply U. reflexivity.
  Qed.
End Least.
