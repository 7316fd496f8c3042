(** The engine that reports does what the engine of [PegModel] does; invariants of
    its state. *)
From Coq Require Import ZArith String Ascii List Bool Lia ZifyBool ZifyNat.
From Verif Require Import Base Ast PegModel PegGrammar PegEngine PegRunes PegReport.
Import ListNotations.
Open Scope string_scope.
Open Scope list_scope.
Open Scope Z_scope.

Lemma bind_ok : forall A B (x : outcome A) (f : A -> outcome B) b, (y <- x ;; f y) = Ok b -> exists a, x = Ok a /\ f a = Ok b.
Proof. intros A B [] f b H; try discriminate. eauto. Qed.

(* ---------- erasure ---------- *)

Definition erase (x : outcome doneR) : outcome done := '(ok, v, f, s) <- x ;; Ok (ok, v, f, base s).
Definition eraseS (x : outcome (bool * list value * frame * rst)) : outcome (bool * list value * frame * pst) :=
  '(ok, v, f, s) <- x ;; Ok (ok, v, f, base s).
Definition eraseL (x : outcome (bool * list value * rst)) : outcome (bool * list value * pst) :=
  '(ok, v, s) <- x ;; Ok (ok, v, base s).

Lemma base_failAt : forall b p w s, base (failAt b p w s) = base s.
Proof. intros b p w s. unfold failAt. destruct (Bool.eqb b (inverted s)); [|reflexivity]. destruct (offset p <? offset (far s)); [reflexivity|]. destruct (offset (far s) <? offset p); reflexivity. Qed.
Lemma base_arrive : forall rule w b s, base (arrive rule w b s) = b.
Proof. intros. unfold arrive. destruct (invalid (rest b)); reflexivity. Qed.
Lemma base_readR : forall rule s, base (readR rule s) = read (base s).
Proof. intros. apply base_arrive. Qed.
Lemma base_optReport : forall rule p t e s, base (optReport rule p t e s) = optErr e (base s).
Proof. intros rule p t [e|] s; reflexivity. Qed.
Lemma base_litLoop : forall rule want s, let '(ok, s') := litLoopR rule want s in (ok, base s') = litLoop want (base s).
Proof.
  intros rule. induction want as [|c want IH]; intros s; cbn [litLoopR litLoop]; [reflexivity|].
  destruct (PegModel.rune (base s) =? byte c); [|reflexivity]. specialize (IH (readR rule s)).
  rewrite base_readR in IH. exact IH.
Qed.

Section Erase.
Variable rules : grammar.
Lemma exprR_S : forall n rule e f s, exprR rules (S n) rule e f s =
        (let s := tick s in
        match e with
        | EAct run e =>                                         
            '(ok, v, f', s') <- exprR rules n rule e f s ;;
            if ok : bool then
              let t := sliceFrom (rest (base s)) (rest (base s')) in
              '(v', er) <- run t f' (ling (base s')) ;;
              Ok (true, v', f', optReport rule (pt s) t er s')
            else Ok (false, v, f', s')
        | EAny => Ok (anyR rule f s)
        | EClass chars ranges => Ok (classR rule chars ranges f s)
        | EChoice alts => altsR rules n rule alts f s                 
        | ELabel l e =>                                         
            '(ok, v, _, s') <- exprR rules n rule e [] s ;;
            Ok (ok, v, if ok && negb (String.eqb l "") then ainsert l v f else f, s')
        | ELit val => Ok (litR rule val f s)
        | ENot e =>                                             
            '(ok, _, _, s') <- exprR rules n rule e [] (withInverted (negb (inverted s)) s) ;;
            Ok (negb ok, VNil, f, restoreR s (restoreStateR s (withInverted (negb (inverted s')) s')))
        | EPlus e =>                                            
            '(ok, vs, s') <- loopR rules n rule e s ;;
            match vs with
            | [] => Ok (false, VNil, f, s')
            | _ => Ok (ok, VSlice vs, f, s')
            end
        | ERule name =>                                         
            match alookup name rules with
            | None =>
                Ok (false, VNil, f,
                    addReport (mkReport (pt s) rule ("undefined rule: " ++ name) []) (withBase (addErr EUnknownRule (base s)) s))
            | Some e =>
                '(ok, v, _, s') <- exprR rules n name e [] s ;;
                Ok (ok, v, f, s')
            end
        | ESeq es =>                                            
            '(ok, vs, f', s') <- seqR rules n rule es f s ;;
            if ok : bool then Ok (true, VSlice vs, f', s')
            else Ok (false, VNil, f', restoreR s (restoreStateR s s'))
        | EState run =>                                         
            Ok (true, VNil, f, withBase (mkPst (rest (base s)) (run f (ling (base s))) (errs (base s))) s)
        | EStar e =>                                            
            '(_, vs, s') <- loopR rules n rule e s ;;
            Ok (true, VSlice vs, f, s')
        | EOpt e =>                                             
            '(_, v, _, s') <- exprR rules n rule e [] s ;;
            Ok (true, v, f, s')
        end).
Proof. reflexivity. Qed.
Lemma altsR_S : forall n rule alts f s, altsR rules (S n) rule alts f s =
        match alts with
        | [] => Ok (false, VNil, f, s)
        | alt :: alts' =>
            '(ok, v, _, s') <- exprR rules n rule alt [] s ;;
            if ok : bool then Ok (true, v, f, s')
            else altsR rules n rule alts' f (restoreStateR s s')
        end.
Proof. reflexivity. Qed.
Lemma seqR_S : forall n rule es f s, seqR rules (S n) rule es f s =
        match es with
        | [] => Ok (true, [], f, s)
        | e :: es' =>
            '(ok, v, f', s') <- exprR rules n rule e f s ;;
            if ok : bool then
              '(ok', vs, f'', s'') <- seqR rules n rule es' f' s' ;;
              Ok (ok', v :: vs, f'', s'')
            else Ok (false, [], f', s')
        end.
Proof. reflexivity. Qed.
Lemma loopR_S : forall n rule e s, loopR rules (S n) rule e s =
        ('(ok, v, _, s') <- exprR rules n rule e [] s ;;
        if ok : bool then
          '(ok', vs, s'') <- loopR rules n rule e s' ;;
          Ok (ok', v :: vs, s'')
        else Ok (true, [], s')).
Proof. reflexivity. Qed.
Lemma erases : forall n,
  (forall rule e f s, erase (exprR rules n rule e f s) = parseExpr rules n e f (base s)) /\
  (forall rule es f s, erase (altsR rules n rule es f s) = parseAlts rules n es f (base s)) /\
  (forall rule es f s, eraseS (seqR rules n rule es f s) = parseSeq rules n es f (base s)) /\
  (forall rule e s, eraseL (loopR rules n rule e s) = parseLoop rules n e (base s)).
Proof.
  induction n as [|n (IE & IA & IS & IL)]; [repeat split; reflexivity|].
  assert (TE : forall rule e f s, erase (exprR rules n rule e f (tick s)) = parseExpr rules n e f (base s)) by (intros; rewrite IE; reflexivity).
  repeat split.
  - intros rule e f s. rewrite exprR_S, expr_S; cbv zeta; destruct e.
    + rewrite <- TE with (rule := rule). unfold erase. destruct (exprR rules n rule e f (tick s)) as [[[[ok v] f'] s']| | |]; try reflexivity.
      cbn [bind]. destruct ok; [|reflexivity]. cbv zeta. cbn [base tick]. destruct (run _ f' (ling (base s'))) as [[v' er]| | |]; try reflexivity.
      cbn [bind]. now rewrite base_optReport.
    + unfold anyR, parseAny. cbn [base tick]. destruct (atEnd (base s)); cbn [erase bind]; rewrite base_failAt, ?base_readR; reflexivity.
    + unfold classR, parseClass. cbn [base tick]. destruct (atEnd (base s)); [cbn [erase bind]; now rewrite base_failAt|].
      destruct (inClass _ _ _); cbn [erase bind]; rewrite base_failAt, ?base_readR; reflexivity.
    + rewrite IA. reflexivity.
    + rewrite <- TE with (rule := rule). unfold erase. destruct (exprR rules n rule e [] (tick s)) as [[[[ok v] f'] s']| | |]; reflexivity.
    + unfold litR, parseLit. pose proof (base_litLoop rule (textOf val) (tick s)) as H.
      destruct (litLoopR rule (textOf val) (tick s)) as [ok s']. change (base (tick s)) with (base s) in *. rewrite <- H.
      destruct ok; cbn [erase bind].
      * rewrite base_failAt. reflexivity.
      * unfold restoreR, withPt, withBase. cbn [base tick]. rewrite base_failAt. reflexivity.
    + replace (parseExpr rules n e [] (base s)) with (erase (exprR rules n rule e [] (withInverted (negb (inverted (tick s))) (tick s)))) by (rewrite IE; reflexivity).
      unfold erase. destruct (exprR rules n rule e [] (withInverted (negb (inverted (tick s))) (tick s))) as [[[[ok v] f'] s']| | |]; reflexivity.
    + replace (parseLoop rules n e (base s)) with (eraseL (loopR rules n rule e (tick s))) by (rewrite IL; reflexivity).
      unfold erase, eraseL. destruct (loopR rules n rule e (tick s)) as [[[ok vs] s']| | |]; try reflexivity. cbn [bind]. destruct vs; reflexivity.
    + destruct (alookup name rules) as [e|]; [|reflexivity].
      rewrite <- TE with (rule := name). unfold erase. destruct (exprR rules n name e [] (tick s)) as [[[[ok v] f'] s']| | |]; reflexivity.
    + replace (parseSeq rules n exprs f (base s)) with (eraseS (seqR rules n rule exprs f (tick s))) by (rewrite IS; reflexivity).
      unfold erase, eraseS. destruct (seqR rules n rule exprs f (tick s)) as [[[[ok vs] f'] s']| | |]; try reflexivity. cbn [bind]. destruct ok; reflexivity.
    + reflexivity.
    + replace (parseLoop rules n e (base s)) with (eraseL (loopR rules n rule e (tick s))) by (rewrite IL; reflexivity).
      unfold erase, eraseL. destruct (loopR rules n rule e (tick s)) as [[[ok vs] s']| | |]; reflexivity.
    + rewrite <- TE with (rule := rule). unfold erase. destruct (exprR rules n rule e [] (tick s)) as [[[[ok v] f'] s']| | |]; reflexivity.
  - intros rule [|e es] f s; [reflexivity|]; rewrite altsR_S, alts_S.
    rewrite <- IE with (rule := rule). unfold erase. destruct (exprR rules n rule e [] s) as [[[[ok v] f'] s']| | |]; try reflexivity.
    cbn [bind]. destruct ok; [reflexivity|]. specialize (IA rule es f (restoreStateR s s')). exact IA.
  - intros rule [|e es] f s; [reflexivity|]; rewrite seqR_S, seq_S.
    rewrite <- IE with (rule := rule). unfold erase, eraseS. destruct (exprR rules n rule e f s) as [[[[ok v] f'] s']| | |]; try reflexivity.
    cbn [bind]. destruct ok; [|reflexivity]. rewrite <- IS with (rule := rule). unfold eraseS.
    destruct (seqR rules n rule es f' s') as [[[[ok' vs] f''] s'']| | |]; reflexivity.
  - intros rule e s. rewrite loopR_S, loop_S.
    rewrite <- IE with (rule := rule). unfold erase, eraseL. destruct (exprR rules n rule e [] s) as [[[[ok v] f'] s']| | |]; try reflexivity.
    cbn [bind]. destruct ok; [|reflexivity]. rewrite <- IL with (rule := rule). unfold eraseL.
    destruct (loopR rules n rule e s') as [[[ok' vs] s'']| | |]; reflexivity.
Qed.
Lemma expr_erases : forall n rule e f s, erase (exprR rules n rule e f s) = parseExpr rules n e f (base s).
Proof. apply erases. Qed.

(* ---------- invariants ---------- *)

Section Inv.
Variable I : rst -> Prop.
Hypothesis I_tick : forall s, I s -> I (tick s).
Hypothesis I_inv : forall b s, I s -> I (withInverted b s).
Hypothesis I_restore : forall s0 s, I s0 -> I s -> I (restoreR s0 s).
Hypothesis I_state : forall l s, I s -> I (withBase (mkPst (rest (base s)) l (errs (base s))) s).
Hypothesis I_read : forall rule s, I s -> atEnd (base s) = false -> I (readR rule s).
Hypothesis I_fail : forall b s0 w s, I s0 -> I s -> I (failAt b (pt s0) w s).
Hypothesis I_report : forall s0 rule t e s, I s0 -> I s -> I (addReport (mkReport (pt s0) rule t []) (withBase (addErr e (base s)) s)).

Lemma I_restoreState : forall s0 s, I s -> I (restoreStateR s0 s).
Proof. intros s0 s H. apply I_state. exact H. Qed.
Lemma lit_notEnd : forall s c, (PegModel.rune s =? byte c) = true -> atEnd s = false.
Proof.
  intros s c H. unfold atEnd, PegModel.rune in *. destruct (DecodeRune (rest s)) as [rn w]. cbn [fst] in H.
  pose proof (byte_range c). unfold RuneError. lia.
Qed.
Lemma I_lit : forall rule want s, I s -> I (snd (litLoopR rule want s)).
Proof.
  intros rule. induction want as [|c want IH]; intros s H; cbn [litLoopR]; [exact H|].
  destruct (PegModel.rune (base s) =? byte c) eqn:E; [|exact H]. apply IH, I_read; auto. eapply lit_notEnd; eauto.
Qed.

Definition holds {A} (x : outcome (A * rst)) : Prop := forall a s, x = Ok (a, s) -> I s.
Lemma keeps : forall n,
  (forall rule e f s, I s -> holds (exprR rules n rule e f s)) /\
  (forall rule es f s, I s -> holds (altsR rules n rule es f s)) /\
  (forall rule es f s, I s -> holds (seqR rules n rule es f s)) /\
  (forall rule e s, I s -> holds (loopR rules n rule e s)).
Proof.
  unfold holds. induction n as [|n (IE & IA & IS & IL)]; [repeat split; intros; discriminate|]. repeat split.
  - intros rule e f s Hs a s1 H. apply I_tick in Hs.
    rewrite exprR_S in H; cbv zeta in H; set (s0 := tick s) in *; clearbody s0; destruct e.
    + apply bind_ok in H as ([[[ok v] f'] s'] & H1 & H). apply IE in H1; auto. destruct ok.
      * apply bind_ok in H as ([v' er] & H2 & H). inversion H; subst. destruct er; [|exact H1]. apply I_report; auto.
      * inversion H; subst; auto.
    + unfold anyR in H. destruct (atEnd (base s0)) eqn:E; inversion H; subst; auto.
    + unfold classR in H. destruct (atEnd (base s0)) eqn:E; [inversion H; subst; auto|]. destruct (inClass _ _ _); inversion H; subst; auto.
    + eapply IA; eauto.
    + apply bind_ok in H as ([[[ok v] f'] s'] & H1 & H). apply IE in H1; auto. inversion H; subst; auto.
    + unfold litR in H. pose proof (I_lit rule (textOf val) s0 Hs) as J. destruct (litLoopR rule (textOf val) s0) as [ok s']. cbn [snd] in J.
      destruct ok; inversion H; subst; auto.
    + apply bind_ok in H as ([[[ok v] f'] s'] & H1 & H). apply IE in H1; auto. inversion H; subst. apply I_restore; auto. apply I_restoreState; auto.
    + apply bind_ok in H as ([[ok vs] s'] & H1 & H). apply IL in H1; auto. destruct vs; inversion H; subst; auto.
    + destruct (alookup name rules) as [e|]; [|inversion H; subst; auto].
      apply bind_ok in H as ([[[ok v] f'] s'] & H1 & H). apply IE in H1; auto. inversion H; subst; auto.
    + apply bind_ok in H as ([[[ok vs] f'] s'] & H1 & H). apply IS in H1; auto. destruct ok; inversion H; subst; auto. apply I_restore; auto. apply I_restoreState; auto.
    + inversion H; subst. apply I_state. auto.
    + apply bind_ok in H as ([[ok vs] s'] & H1 & H). apply IL in H1; auto. inversion H; subst; auto.
    + apply bind_ok in H as ([[[ok v] f'] s'] & H1 & H). apply IE in H1; auto. inversion H; subst; auto.
  - intros rule [|e es] f s Hs a s1 H; rewrite altsR_S in H; [inversion H; subst; auto|].
    apply bind_ok in H as ([[[ok v] f'] s'] & H1 & H). apply IE in H1; auto. destruct ok; [inversion H; subst; auto|].
    eapply IA in H; eauto.
  - intros rule [|e es] f s Hs a s1 H; rewrite seqR_S in H; [inversion H; subst; auto|].
    apply bind_ok in H as ([[[ok v] f'] s'] & H1 & H). apply IE in H1; auto. destruct ok; [|inversion H; subst; auto].
    apply bind_ok in H as ([[[ok' vs] f''] s''] & H2 & H). apply IS in H2; auto. inversion H; subst; auto.
  - intros rule e s Hs a s1 H; rewrite loopR_S in H.
    apply bind_ok in H as ([[[ok v] f'] s'] & H1 & H). apply IE in H1; auto. destruct ok; [|inversion H; subst; auto].
    apply bind_ok in H as ([[ok' vs] s''] & H2 & H). apply IL in H2; auto. inversion H; subst; auto.
Qed.
Lemma expr_keeps : forall n rule e f s ok v f' s', I s -> exprR rules n rule e f s = Ok (ok, v, f', s') -> I s'.
Proof. intros n rule e f s ok v f' s' Hs H. exact (proj1 (keeps n) rule e f s Hs (ok, v, f') s' H). Qed.
End Inv.
End Erase.

(** As many reports as errors. *)
Definition synced (s : rst) : Prop := length (reports s) = length (errs (base s)).
Lemma synced_expr : forall rules n rule e f s ok v f' s', synced s -> exprR rules n rule e f s = Ok (ok, v, f', s') -> synced s'.
Proof.
  intros rules n rule e f s ok v f' s'. apply expr_keeps; unfold synced.
  - intros x H. exact H.
  - intros b x H. exact H.
  - intros x0 x _ H. exact H.
  - intros l x H. exact H.
  - intros r x H E. unfold readR, arrive, read. destruct (invalid (skipn _ _)) eqn:V; cbn [rest addErr]; rewrite V;
      cbn [reports addReport withPt withBase base errs addErr]; rewrite ?app_length; cbn [length]; lia.
  - intros b x0 w x _ H. unfold failAt. destruct (Bool.eqb b (inverted x)); auto. destruct (_ <? _); auto. destruct (_ <? _); auto.
  - intros x0 r t er x _ H. cbn [reports addReport withBase base errs addErr]. rewrite !app_length. cbn [length]. lia.
Qed.
Lemma synced_start : forall data, synced (startR data).
Proof. intros data. unfold startR, arrive, synced. cbn [base]. destruct (invalid data) eqn:E; cbn [rest addErr]; rewrite E; reflexivity. Qed.
Lemma base_start : forall data, base (startR data) = if invalid data then addErr EEncoding (mkPst data [] []) else mkPst data [] [].
Proof. intros data. unfold startR. now rewrite base_arrive. Qed.
