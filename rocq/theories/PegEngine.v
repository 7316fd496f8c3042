(** Facts about the engine of [PegModel] that hold for every grammar. *)
From Coq Require Import ZArith String Ascii List Bool Lia ZifyBool ZifyNat.
From Verif Require Import Base Ast PegModel.
Import ListNotations.
Open Scope string_scope.
Open Scope list_scope.
Open Scope Z_scope.

Definition halted {A} (x : outcome A) : Prop := x <> OutOfFuel.

Lemma bind_keep : forall A B (x x' : outcome A) (k k' : A -> outcome B),
  (halted x -> x' = x) ->
  (forall a, x = Ok a -> halted (k a) -> k' a = k a) ->
  halted (bind x k) -> bind x' k' = bind x k.
Proof.
  unfold halted. intros A B x x' k k' H1 H2 H.
  destruct x; cbn in *.
  - rewrite H1 by discriminate. cbn. apply H2; auto.
  - rewrite H1 by discriminate. reflexivity.
  - rewrite H1 by discriminate. reflexivity.
  - congruence.
Qed.

Section Engine.
  Variable rules : grammar.

  Definition keepsAt (n : nat) : Prop :=
    (forall e f s, halted (parseExpr rules n e f s) ->
       parseExpr rules (S n) e f s = parseExpr rules n e f s) /\
    (forall alts f s, halted (parseAlts rules n alts f s) ->
       parseAlts rules (S n) alts f s = parseAlts rules n alts f s) /\
    (forall es f s, halted (parseSeq rules n es f s) ->
       parseSeq rules (S n) es f s = parseSeq rules n es f s) /\
    (forall e s, halted (parseLoop rules n e s) ->
       parseLoop rules (S n) e s = parseLoop rules n e s).

  Lemma expr_S : forall n e f s, parseExpr rules (S n) e f s =
        match e with
        | EAct run e =>
            '(ok, v, f', s') <- parseExpr rules n e f s ;;
            if ok : bool then
              '(v', er) <- run (sliceFrom (rest s) (rest s')) f' (ling s') ;;
              Ok (true, v', f', optErr er s')
            else Ok (false, v, f', s')
        | EAny => Ok (parseAny f s)
        | EClass chars ranges => Ok (parseClass chars ranges f s)
        | EChoice alts => parseAlts rules n alts f s
        | ELabel l e =>
            '(ok, v, _, s') <- parseExpr rules n e [] s ;;
            Ok (ok, v, if ok && negb (String.eqb l "") then ainsert l v f else f, s')
        | ELit val => Ok (parseLit val f s)
        | ENot e =>
            '(ok, _, _, s') <- parseExpr rules n e [] s ;;
            Ok (negb ok, VNil, f, restore (rest s) (restoreState (ling s) s'))
        | EPlus e =>
            '(ok, vs, s') <- parseLoop rules n e s ;;
            match vs with
            | [] => Ok (false, VNil, f, s')
            | _ => Ok (ok, VSlice vs, f, s')
            end
        | ERule name =>
            match alookup name rules with
            | None => Ok (false, VNil, f, addErr EUnknownRule s)
            | Some e =>
                '(ok, v, _, s') <- parseExpr rules n e [] s ;;
                Ok (ok, v, f, s')
            end
        | ESeq es =>
            '(ok, vs, f', s') <- parseSeq rules n es f s ;;
            if ok : bool then Ok (true, VSlice vs, f', s')
            else Ok (false, VNil, f', restore (rest s) (restoreState (ling s) s'))
        | EState run =>
            Ok (true, VNil, f, mkPst (rest s) (run f (ling s)) (errs s))
        | EStar e =>
            '(_, vs, s') <- parseLoop rules n e s ;;
            Ok (true, VSlice vs, f, s')
        | EOpt e =>
            '(_, v, _, s') <- parseExpr rules n e [] s ;;
            Ok (true, v, f, s')
        end.
  Proof. reflexivity. Qed.

  Lemma alts_S : forall n alts f s, parseAlts rules (S n) alts f s =
        match alts with
        | [] => Ok (false, VNil, f, s)
        | alt :: alts' =>
            '(ok, v, _, s') <- parseExpr rules n alt [] s ;;
            if ok : bool then Ok (true, v, f, s')
            else parseAlts rules n alts' f (restoreState (ling s) s')
        end.
  Proof. reflexivity. Qed.

  Lemma seq_S : forall n es f s, parseSeq rules (S n) es f s =
        match es with
        | [] => Ok (true, [], f, s)
        | e :: es' =>
            '(ok, v, f', s') <- parseExpr rules n e f s ;;
            if ok : bool then
              '(ok', vs, f'', s'') <- parseSeq rules n es' f' s' ;;
              Ok (ok', v :: vs, f'', s'')
            else Ok (false, [], f', s')
        end.
  Proof. reflexivity. Qed.

  Lemma loop_S : forall n e s, parseLoop rules (S n) e s =
        ('(ok, v, _, s') <- parseExpr rules n e [] s ;;
        if ok : bool then
          '(ok', vs, s'') <- parseLoop rules n e s' ;;
          Ok (ok', v :: vs, s'')
        else Ok (true, [], s')).
  Proof. reflexivity. Qed.

  Lemma keeps : forall n, keepsAt n.
  Proof.
    induction n as [|n (He & Ha & Hs & Hl)].
    - repeat split; intros; exfalso; apply H; reflexivity.
    - repeat split; intros.
      + rewrite expr_S in H. rewrite expr_S. rewrite (expr_S n).
        destruct e; auto; try (apply bind_keep; auto; intros; fail).
        destruct (alookup name rules); auto.
        revert H; apply bind_keep; auto.
      + rewrite alts_S in H. rewrite alts_S. rewrite (alts_S n).
        destruct alts; auto. revert H; apply bind_keep; auto.
        intros [[[ok v] f'] s'] _. destruct ok; auto.
      + rewrite seq_S in H. rewrite seq_S. rewrite (seq_S n).
        destruct es; auto. revert H; apply bind_keep; auto.
        intros [[[ok v] f'] s'] _. destruct ok; auto. apply bind_keep; auto.
      + rewrite loop_S in H. rewrite loop_S. rewrite (loop_S n).
        revert H; apply bind_keep; auto.
        intros [[[ok v] f'] s'] _. destruct ok; auto. apply bind_keep; auto.
  Qed.

  Lemma expr_mono : forall n m e f s, (n <= m)%nat -> halted (parseExpr rules n e f s) ->
    parseExpr rules m e f s = parseExpr rules n e f s.
  Proof.
    induction 1 as [|m Hle IH]; auto. intros H. rewrite <- IH by auto.
    destruct (keeps m) as (He & _). apply He. rewrite IH; auto.
  Qed.
  Lemma alts_mono : forall n m e f s, (n <= m)%nat -> halted (parseAlts rules n e f s) ->
    parseAlts rules m e f s = parseAlts rules n e f s.
  Proof.
    induction 1 as [|m Hle IH]; auto. intros H. rewrite <- IH by auto.
    destruct (keeps m) as (_ & He & _). apply He. rewrite IH; auto.
  Qed.
  Lemma seq_mono : forall n m e f s, (n <= m)%nat -> halted (parseSeq rules n e f s) ->
    parseSeq rules m e f s = parseSeq rules n e f s.
  Proof.
    induction 1 as [|m Hle IH]; auto. intros H. rewrite <- IH by auto.
    destruct (keeps m) as (_ & _ & He & _). apply He. rewrite IH; auto.
  Qed.
  Lemma loop_mono : forall n m e s, (n <= m)%nat -> halted (parseLoop rules n e s) ->
    parseLoop rules m e s = parseLoop rules n e s.
  Proof.
    induction 1 as [|m Hle IH]; auto. intros H. rewrite <- IH by auto.
    destruct (keeps m) as (_ & _ & _ & He). apply He. rewrite IH; auto.
  Qed.

  (** Runs with enough fuel. *)
  Definition runs (e : expr) (f : frame) (s : pst) (r : done) : Prop :=
    exists n, parseExpr rules n e f s = Ok r.
  Definition runsAlts (e : list expr) (f : frame) (s : pst) (r : done) : Prop :=
    exists n, parseAlts rules n e f s = Ok r.
  Definition runsSeq (e : list expr) (f : frame) (s : pst) (r : bool * list value * frame * pst) : Prop :=
    exists n, parseSeq rules n e f s = Ok r.
  Definition runsLoop (e : expr) (s : pst) (r : bool * list value * pst) : Prop :=
    exists n, parseLoop rules n e s = Ok r.

  Lemma ok_halted : forall A (x : outcome A) a, x = Ok a -> halted x.
  Proof. unfold halted. intros; subst; discriminate. Qed.

  Lemma runs_fun : forall e f s r1 r2, runs e f s r1 -> runs e f s r2 -> r1 = r2.
  Proof.
    intros e f s r1 r2 [n1 H1] [n2 H2].
    pose proof (expr_mono n1 (Nat.max n1 n2) e f s (Nat.le_max_l _ _) (ok_halted _ _ _ H1)) as A1.
    pose proof (expr_mono n2 (Nat.max n1 n2) e f s (Nat.le_max_r _ _) (ok_halted _ _ _ H2)) as A2.
    congruence.
  Qed.

  Ltac lift n m H :=
    first
      [ rewrite (expr_mono n m) by (try lia; eapply ok_halted; exact H)
      | rewrite (alts_mono n m) by (try lia; eapply ok_halted; exact H)
      | rewrite (seq_mono n m) by (try lia; eapply ok_halted; exact H)
      | rewrite (loop_mono n m) by (try lia; eapply ok_halted; exact H) ];
    rewrite H; cbn [bind].

  Lemma runs_act : forall run e f s v f' s' v' er,
    runs e f s (true, v, f', s') ->
    run (sliceFrom (rest s) (rest s')) f' (ling s') = Ok (v', er) ->
    runs (EAct run e) f s (true, v', f', optErr er s').
  Proof. intros run e f s v f' s' v' er [n H] A. exists (S n). rewrite expr_S, H. cbn. rewrite A. reflexivity. Qed.
  Lemma runs_act_fail : forall run e f s v f' s',
    runs e f s (false, v, f', s') -> runs (EAct run e) f s (false, v, f', s').
  Proof. intros run e f s v f' s' [n H]. exists (S n). rewrite expr_S, H. reflexivity. Qed.
  Lemma runs_choice : forall alts f s r, runsAlts alts f s r -> runs (EChoice alts) f s r.
  Proof. intros alts f s r [n H]. exists (S n). rewrite expr_S. exact H. Qed.
  Lemma alts_nil : forall f s, runsAlts [] f s (false, VNil, f, s).
  Proof. intros. exists 1%nat. reflexivity. Qed.
  Lemma alts_first : forall e es f s v f' s',
    runs e [] s (true, v, f', s') -> runsAlts (e :: es) f s (true, v, f, s').
  Proof. intros e es f s v f' s' [n H]. exists (S n). rewrite alts_S, H. reflexivity. Qed.
  Lemma alts_next : forall e es f s v f' s' r,
    runs e [] s (false, v, f', s') -> runsAlts es f (restoreState (ling s) s') r ->
    runsAlts (e :: es) f s r.
  Proof.
    intros e es f s v f' s' r [n H] [m H2]. exists (S (Nat.max n m)). rewrite alts_S.
    lift n (Nat.max n m) H. lift m (Nat.max n m) H2. reflexivity.
  Qed.
  Lemma runs_label : forall l e f s ok v f' s', l <> "" ->
    runs e [] s (ok, v, f', s') ->
    runs (ELabel l e) f s (ok, v, if ok : bool then ainsert l v f else f, s').
  Proof.
    intros l e f s ok v f' s' Hl [n H]. exists (S n). rewrite expr_S, H. cbn [bind].
    destruct (String.eqb_spec l ""); [congruence|]. destruct ok; reflexivity.
  Qed.
  Lemma runs_lit : forall x f s, runs (ELit x) f s (parseLit x f s).
  Proof. intros. exists 1%nat. reflexivity. Qed.
  Lemma runs_class : forall c r f s, runs (EClass c r) f s (parseClass c r f s).
  Proof. intros. exists 1%nat. reflexivity. Qed.
  Lemma runs_any : forall f s, runs EAny f s (parseAny f s).
  Proof. intros. exists 1%nat. reflexivity. Qed.
  Lemma runs_not : forall e f s ok v f' s', runs e [] s (ok, v, f', s') ->
    runs (ENot e) f s (negb ok, VNil, f, restore (rest s) (restoreState (ling s) s')).
  Proof. intros e f s ok v f' s' [n H]. exists (S n). rewrite expr_S, H. reflexivity. Qed.
  Lemma runs_rule : forall name e f s ok v f' s', alookup name rules = Some e ->
    runs e [] s (ok, v, f', s') -> runs (ERule name) f s (ok, v, f, s').
  Proof. intros name e f s ok v f' s' L [n H]. exists (S n). rewrite expr_S, L, H. reflexivity. Qed.
  Lemma runs_seq : forall es f s vs f' s', runsSeq es f s (true, vs, f', s') ->
    runs (ESeq es) f s (true, VSlice vs, f', s').
  Proof. intros es f s vs f' s' [n H]. exists (S n). rewrite expr_S, H. reflexivity. Qed.
  Lemma runs_seq_fail : forall es f s vs f' s', runsSeq es f s (false, vs, f', s') ->
    runs (ESeq es) f s (false, VNil, f', restore (rest s) (restoreState (ling s) s')).
  Proof. intros es f s vs f' s' [n H]. exists (S n). rewrite expr_S, H. reflexivity. Qed.
  Lemma seq_nil : forall f s, runsSeq [] f s (true, [], f, s).
  Proof. intros. exists 1%nat. reflexivity. Qed.
  Lemma seq_cons : forall e es f s v f' s' ok vs f'' s'',
    runs e f s (true, v, f', s') -> runsSeq es f' s' (ok, vs, f'', s'') ->
    runsSeq (e :: es) f s (ok, v :: vs, f'', s'').
  Proof.
    intros e es f s v f' s' ok vs f'' s'' [n H] [m H2]. exists (S (Nat.max n m)). rewrite seq_S.
    lift n (Nat.max n m) H. lift m (Nat.max n m) H2. reflexivity.
  Qed.
  Lemma seq_fail : forall e es f s v f' s', runs e f s (false, v, f', s') ->
    runsSeq (e :: es) f s (false, [], f', s').
  Proof. intros e es f s v f' s' [n H]. exists (S n). rewrite seq_S, H. reflexivity. Qed.
  Lemma runs_state : forall run f s,
    runs (EState run) f s (true, VNil, f, mkPst (rest s) (run f (ling s)) (errs s)).
  Proof. intros. exists 1%nat. reflexivity. Qed.
  Lemma runs_opt : forall e f s ok v f' s', runs e [] s (ok, v, f', s') ->
    runs (EOpt e) f s (true, v, f, s').
  Proof. intros e f s ok v f' s' [n H]. exists (S n). rewrite expr_S, H. reflexivity. Qed.
  Lemma runs_star : forall e f s ok vs s', runsLoop e s (ok, vs, s') ->
    runs (EStar e) f s (true, VSlice vs, f, s').
  Proof. intros e f s ok vs s' [n H]. exists (S n). rewrite expr_S, H. reflexivity. Qed.
  Lemma loop_end : forall e s v f' s', runs e [] s (false, v, f', s') ->
    runsLoop e s (true, [], s').
  Proof. intros e s v f' s' [n H]. exists (S n). rewrite loop_S, H. reflexivity. Qed.
  Lemma loop_next : forall e s v f' s' ok vs s'', runs e [] s (true, v, f', s') ->
    runsLoop e s' (ok, vs, s'') -> runsLoop e s (ok, v :: vs, s'').
  Proof.
    intros e s v f' s' ok vs s'' [n H] [m H2]. exists (S (Nat.max n m)). rewrite loop_S.
    lift n (Nat.max n m) H. lift m (Nat.max n m) H2. reflexivity.
  Qed.
  Lemma runs_plus : forall e f s ok v vs s', runsLoop e s (ok, v :: vs, s') ->
    runs (EPlus e) f s (ok, VSlice (v :: vs), f, s').
  Proof. intros e f s ok v vs s' [n H]. exists (S n). rewrite expr_S, H. reflexivity. Qed.
  Lemma runs_plus_fail : forall e f s v f' s', runs e [] s (false, v, f', s') ->
    runs (EPlus e) f s (false, VNil, f, s').
  Proof. intros e f s v f' s' [n H]. exists (S (S n)). rewrite expr_S, loop_S, H. reflexivity. Qed.
End Engine.
