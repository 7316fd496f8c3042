(** How often the engine evaluates expressions on nested declarations. *)
From Coq Require Import ZArith String Ascii List Bool Lia ZifyBool ZifyNat.
From Verif Require Import Base Ast PegModel PegGrammar PegEngine PegRunes PegReport PegReportProofs PegPlace PegReportTop.
Import ListNotations.
Open Scope string_scope.
Open Scope list_scope.
Open Scope Z_scope.

(* ---------- what an expression recognises, and at what cost ---------- *)

Definition T (e : expr) (x : text) (ok : bool) (x' : text) (c : Z) : Prop :=
  forall n rule f s ok' v f' s', rest (base s) = x -> exprR g n rule e f s = Ok (ok', v, f', s') ->
    ok' = ok /\ rest (base s') = x' /\ exprCnt s + c <= exprCnt s'.
Definition TA (es : list expr) (x : text) (ok : bool) (x' : text) (c : Z) : Prop :=
  forall n rule f s ok' v f' s', rest (base s) = x -> altsR g n rule es f s = Ok (ok', v, f', s') ->
    ok' = ok /\ rest (base s') = x' /\ exprCnt s + c <= exprCnt s'.
Definition TS (es : list expr) (x : text) (ok : bool) (x' : text) (c : Z) : Prop :=
  forall n rule f s ok' v f' s', rest (base s) = x -> seqR g n rule es f s = Ok (ok', v, f', s') ->
    ok' = ok /\ rest (base s') = x' /\ exprCnt s + c <= exprCnt s'.
(** [k] is the number of matches, capped at one. *)
Definition TL (e : expr) (x : text) (k : bool) (x' : text) (c : Z) : Prop :=
  forall n rule s ok' vs s', rest (base s) = x -> loopR g n rule e s = Ok (ok', vs, s') ->
    ok' = true /\ (k = true <-> vs <> []) /\ rest (base s') = x' /\ exprCnt s + c <= exprCnt s'.

Lemma cnt_failAt : forall b p w s, exprCnt (failAt b p w s) = exprCnt s.
Proof. intros b p w s. unfold failAt. destruct (Bool.eqb b (inverted s)); [|reflexivity]. destruct (offset p <? offset (far s)); [reflexivity|]. destruct (offset (far s) <? offset p); reflexivity. Qed.
Lemma cnt_readR : forall rule s, exprCnt (readR rule s) = exprCnt s.
Proof. intros. unfold readR, arrive. destruct (invalid _); reflexivity. Qed.
Lemma rest_read : forall s, rest (read s) = skipn (snd (DecodeRune (rest s))) (rest s).
Proof. intros. unfold read. destruct (invalid _); reflexivity. Qed.
Lemma cnt_lit : forall rule want s, exprCnt (snd (litLoopR rule want s)) = exprCnt s.
Proof.
  intros rule. induction want as [|c want IH]; intros s; cbn [litLoopR]; [reflexivity|].
  destruct (_ =? _); [|reflexivity]. rewrite IH. apply cnt_readR.
Qed.

Ltac start := intros n rule f s ok' v f' s' HX H; destruct n as [|n]; [discriminate|]; rewrite exprR_S in H; cbv zeta in H.

Lemma T_act : forall run e x ok x' c, T e x ok x' c -> T (EAct run e) x ok x' c.
Proof.
  intros run e x ok x' c HT. start. apply bind_ok in H as ([[[ok1 v1] f1] s1] & H1 & H).
  apply HT in H1; [|exact HX]. cbn [exprCnt tick] in H1. destruct ok1.
  - apply bind_ok in H as ([v' er] & H2 & H). inversion H; subst. destruct er; cbn [optReport addReport withBase base addErr rest exprCnt]; intuition lia.
  - inversion H; subst. intuition lia.
Qed.
Lemma T_label : forall l e x ok x' c, T e x ok x' c -> T (ELabel l e) x ok x' c.
Proof.
  intros l e x ok x' c HT. start. apply bind_ok in H as ([[[ok1 v1] f1] s1] & H1 & H).
  apply HT in H1; [|exact HX]. cbn [exprCnt tick] in H1. inversion H; subst. intuition lia.
Qed.
Lemma T_opt : forall e x ok x' c, T e x ok x' c -> T (EOpt e) x true x' c.
Proof.
  intros e x ok x' c HT. start. apply bind_ok in H as ([[[ok1 v1] f1] s1] & H1 & H).
  apply HT in H1; [|exact HX]. cbn [exprCnt tick] in H1. inversion H; subst. intuition lia.
Qed.
Lemma T_rule : forall name e x ok x' c, alookup name g = Some e -> T e x ok x' c -> T (ERule name) x ok x' (1 + c).
Proof.
  intros name e x ok x' c L HT. start. rewrite L in H. apply bind_ok in H as ([[[ok1 v1] f1] s1] & H1 & H).
  apply HT in H1; [|exact HX]. cbn [exprCnt tick] in H1. inversion H; subst. intuition lia.
Qed.
Lemma T_not : forall e x ok x' c, 0 <= c -> T e x ok x' c -> T (ENot e) x (negb ok) x 0.
Proof.
  intros e x ok x' c C HT. start. apply bind_ok in H as ([[[ok1 v1] f1] s1] & H1 & H).
  apply HT in H1; [|exact HX]. cbn [exprCnt tick withInverted] in H1. inversion H; subst. destruct H1 as (-> & _ & L).
  cbn. intuition lia.
Qed.
Lemma T_state : forall run x, T (EState run) x true x 0.
Proof. intros run x. start. inversion H; subst. cbn. intuition lia. Qed.
Lemma T_choice : forall es x ok x' c, TA es x ok x' c -> T (EChoice es) x ok x' c.
Proof. intros es x ok x' c HT. start. apply HT in H; [|exact HX]. cbn [exprCnt tick] in H. intuition lia. Qed.
Lemma T_seq : forall es x ok x' c, TS es x ok x' c -> T (ESeq es) x ok (if ok then x' else x) c.
Proof.
  intros es x ok x' c HT. start. apply bind_ok in H as ([[[ok1 v1] f1] s1] & H1 & H).
  apply HT in H1; [|exact HX]. cbn [exprCnt tick] in H1. destruct H1 as (-> & R & L). destruct ok; inversion H; subst; cbn; intuition lia.
Qed.
Lemma T_star : forall e x k x' c, TL e x k x' c -> T (EStar e) x true x' c.
Proof.
  intros e x k x' c HT. start. apply bind_ok in H as ([[ok1 vs] s1] & H1 & H).
  apply HT in H1; [|exact HX]. cbn [exprCnt tick] in H1. inversion H; subst. intuition lia.
Qed.
Lemma T_plus : forall e x k x' c, TL e x k x' c -> T (EPlus e) x k x' c.
Proof.
  intros e x k x' c HT. start. apply bind_ok in H as ([[ok1 vs] s1] & H1 & H).
  apply HT in H1; [|exact HX]. cbn [exprCnt tick] in H1. destruct H1 as (-> & K & R & L).
  destruct vs; inversion H; subst.
  - split; [destruct k; auto; exfalso; apply K; auto|]. intuition lia.
  - split; [symmetry; apply K; discriminate|]. intuition lia.
Qed.
Lemma T_any : forall x ok x', (ok, x') = (if atEnd (mkPst x [] []) then (false, x) else (true, skipn (snd (DecodeRune x)) x)) -> T EAny x ok x' 0.
Proof.
  intros x ok x' E. start. unfold anyR, atEnd in *. cbn [base tick rest] in *. rewrite HX in H. destruct (DecodeRune x) as [rn w] eqn:D.
  destruct ((rn =? RuneError) && (w =? 0)%nat); inversion H; inversion E; subst.
  - rewrite base_failAt, cnt_failAt. cbn. intuition lia.
  - rewrite base_failAt, cnt_failAt, cnt_readR, base_readR, rest_read. cbn [base tick exprCnt]. rewrite D. intuition lia.
Qed.
Lemma T_class : forall chars ranges x ok x',
  (ok, x') = (if atEnd (mkPst x [] []) then (false, x) else if inClass chars ranges (fst (DecodeRune x)) then (true, skipn (snd (DecodeRune x)) x) else (false, x)) ->
  T (EClass chars ranges) x ok x' 0.
Proof.
  intros chars ranges x ok x' E. start. unfold classR, atEnd, PegModel.rune in *. cbn [base tick rest] in *. rewrite HX in H. destruct (DecodeRune x) as [rn w] eqn:D.
  cbn [fst snd] in *.
  destruct ((rn =? RuneError) && (w =? 0)%nat); [|destruct (inClass _ _ _)]; inversion H; inversion E; subst.
  - rewrite base_failAt, cnt_failAt. cbn. intuition lia.
  - rewrite base_failAt, cnt_failAt, cnt_readR, base_readR, rest_read. cbn [base tick exprCnt]. rewrite D. intuition lia.
  - rewrite base_failAt, cnt_failAt. cbn. intuition lia.
Qed.
Fixpoint litText (want x : text) : bool * text :=
  match want with
  | [] => (true, x)
  | c :: want => if fst (DecodeRune x) =? byte c then litText want (skipn (snd (DecodeRune x)) x) else (false, x)
  end.
Lemma litLoop_text : forall rule want s, (fst (litLoopR rule want s), rest (base (snd (litLoopR rule want s)))) = litText want (rest (base s)).
Proof.
  intros rule. induction want as [|c want IH]; intros s; cbn [litLoopR litText]; [reflexivity|]. unfold PegModel.rune.
  destruct (_ =? _); [|reflexivity]. rewrite IH, base_readR, rest_read. reflexivity.
Qed.
Lemma T_lit : forall val x ok x', litText (textOf val) x = (ok, x') -> T (ELit val) x ok (if ok then x' else x) 0.
Proof.
  intros val x ok x' E. start. unfold litR in H. pose proof (litLoop_text rule (textOf val) (tick s)) as L. pose proof (cnt_lit rule (textOf val) (tick s)) as C.
  destruct (litLoopR rule (textOf val) (tick s)) as [ok1 s1]. cbn [fst snd base tick exprCnt] in *. rewrite HX, E in L. inversion L; subst.
  destruct ok; inversion H; subst.
  - rewrite base_failAt, cnt_failAt. intuition lia.
  - cbn [restoreR withPt withBase base rest restore exprCnt tick]. rewrite cnt_failAt. intuition lia.
Qed.
Lemma TA_nil : forall x, TA [] x false x 0.
Proof. intros x [|n] rule f s ok' v f' s' HX H; [discriminate|]. rewrite altsR_S in H. inversion H; subst. intuition lia. Qed.
Lemma TA_yes : forall e es x x' c, T e x true x' c -> TA (e :: es) x true x' c.
Proof.
  intros e es x x' c HT [|n] rule f s ok' v f' s' HX H; [discriminate|]. rewrite altsR_S in H.
  apply bind_ok in H as ([[[ok1 v1] f1] s1] & H1 & H). apply HT in H1; [|exact HX]. destruct H1 as (-> & R & L). inversion H; subst. intuition lia.
Qed.
Lemma TA_no : forall e es x x1 ok x' c1 c2, T e x false x1 c1 -> TA es x1 ok x' c2 -> TA (e :: es) x ok x' (c1 + c2).
Proof.
  intros e es x x1 ok x' c1 c2 HT HA [|n] rule f s ok' v f' s' HX H; [discriminate|]. rewrite altsR_S in H.
  apply bind_ok in H as ([[[ok1 v1] f1] s1] & H1 & H). apply HT in H1; [|exact HX]. destruct H1 as (-> & R & L).
  apply HA in H; [|exact R]. cbn [exprCnt restoreStateR withBase] in H. intuition lia.
Qed.
Lemma TS_nil : forall x, TS [] x true x 0.
Proof. intros x [|n] rule f s ok' v f' s' HX H; [discriminate|]. rewrite seqR_S in H. inversion H; subst. intuition lia. Qed.
Lemma TS_no : forall e es x x' c, T e x false x' c -> TS (e :: es) x false x' c.
Proof.
  intros e es x x' c HT [|n] rule f s ok' v f' s' HX H; [discriminate|]. rewrite seqR_S in H.
  apply bind_ok in H as ([[[ok1 v1] f1] s1] & H1 & H). apply HT in H1; [|exact HX]. destruct H1 as (-> & R & L). inversion H; subst. intuition lia.
Qed.
Lemma TS_yes : forall e es x x1 ok x' c1 c2, T e x true x1 c1 -> TS es x1 ok x' c2 -> TS (e :: es) x ok x' (c1 + c2).
Proof.
  intros e es x x1 ok x' c1 c2 HT HA [|n] rule f s ok' v f' s' HX H; [discriminate|]. rewrite seqR_S in H.
  apply bind_ok in H as ([[[ok1 v1] f1] s1] & H1 & H). apply HT in H1; [|exact HX]. destruct H1 as (-> & R & L).
  apply bind_ok in H as ([[[ok2 v2] f2] s2] & H2 & H). apply HA in H2; [|exact R]. inversion H; subst. intuition lia.
Qed.
Lemma TL_no : forall e x x' c, T e x false x' c -> TL e x false x' c.
Proof.
  intros e x x' c HT [|n] rule s ok' vs s' HX H; [discriminate|]. rewrite loopR_S in H.
  apply bind_ok in H as ([[[ok1 v1] f1] s1] & H1 & H). apply HT in H1; [|exact HX]. destruct H1 as (-> & R & L). inversion H; subst.
  split; [auto|]. split; [split; [discriminate|congruence]|]. auto.
Qed.
Lemma TL_yes : forall e x x1 k x' c1 c2, T e x true x1 c1 -> TL e x1 k x' c2 -> TL e x true x' (c1 + c2).
Proof.
  intros e x x1 k x' c1 c2 HT HL [|n] rule s ok' vs s' HX H; [discriminate|]. rewrite loopR_S in H.
  apply bind_ok in H as ([[[ok1 v1] f1] s1] & H1 & H). apply HT in H1; [|exact HX]. destruct H1 as (-> & R & L).
  apply bind_ok in H as ([[ok2 v2] s2] & H2 & H). apply HL in H2; [|exact R]. inversion H; subst.
  split; [tauto|]. split; [split; [discriminate|auto]|]. split; [tauto|]. intuition lia.
Qed.

(* ---------- symbolic texts ---------- *)

(** A text with a member in it whose size is not known, and with an unknown end. *)
Inductive sym : Type := Ch (c : ascii) | Hole | Tail.
Definition chars (s : string) : list sym := map Ch (textOf s).
Definition cost := (Z * Z)%type.
Definition plus (a b : cost) : cost := (fst a + fst b, snd a + snd b).
Definition found := option (bool * list sym * cost).

(** The next rune and what follows; [None] inside is the end of the text. *)
Definition look (x : list sym) : option (option (Z * list sym)) :=
  match x with
  | [] => Some None
  | Ch c :: x' => if byte c <? 128 then Some (Some (byte c, x')) else None
  | _ => None
  end.
Fixpoint symLit (want : text) (x : list sym) : option (bool * list sym) :=
  match want with
  | [] => Some (true, x)
  | c :: want =>
      match look x with
      | None => None
      | Some None => Some (false, x)
      | Some (Some (r, x')) => if r =? byte c then symLit want x' else Some (false, x)
      end
  end.
(** [h] says whether there are unknown members. *)
Fixpoint recog (h : bool) (n : nat) (e : expr) (x : list sym) : found :=
  match n with
  | O => None
  | S n =>
      match e with
      | EAct _ e => recog h n e x
      | EAny =>
          match look x with
          | None => None | Some None => Some (false, x, (0, 0)) | Some (Some (_, x')) => Some (true, x', (0, 0)) end
      | EClass cs rs =>
          match look x with
          | None => None | Some None => Some (false, x, (0, 0))
          | Some (Some (r, x')) => if inClass cs rs r then Some (true, x', (0, 0)) else Some (false, x, (0, 0)) end
      | EChoice es => recogA h n es x
      | ELabel _ e => recog h n e x
      | ELit v =>
          match symLit (textOf v) x with None => None | Some (ok, x') => Some (ok, if ok then x' else x, (0, 0)) end
      | ENot e => match recog h n e x with None => None | Some (ok, _, _) => Some (negb ok, x, (0, 0)) end
      | EPlus e => recogL h n e x
      | ERule name =>
          match x with
          | Hole :: x' => if h && String.eqb name "StructMember" then Some (true, x', (0, 1)) else None
          | _ =>
              match alookup name g with
              | None => None
              | Some e => match recog h n e x with None => None | Some (ok, x', c) => Some (ok, x', plus (1, 0) c) end
              end
          end
      | ESeq es => match recogS h n es x with None => None | Some (ok, x', c) => Some (ok, if ok then x' else x, c) end
      | EState _ => Some (true, x, (0, 0))
      | EStar e => match recogL h n e x with None => None | Some (_, x', c) => Some (true, x', c) end
      | EOpt e => match recog h n e x with None => None | Some (_, x', c) => Some (true, x', c) end
      end
  end
with recogA (h : bool) (n : nat) (es : list expr) (x : list sym) : found :=
  match n with
  | O => None
  | S n =>
      match es with
      | [] => Some (false, x, (0, 0))
      | e :: es =>
          match recog h n e x with
          | None => None
          | Some (true, x', c) => Some (true, x', c)
          | Some (false, x1, c1) => match recogA h n es x1 with None => None | Some (ok, x', c2) => Some (ok, x', plus c1 c2) end
          end
      end
  end
with recogS (h : bool) (n : nat) (es : list expr) (x : list sym) : found :=
  match n with
  | O => None
  | S n =>
      match es with
      | [] => Some (true, x, (0, 0))
      | e :: es =>
          match recog h n e x with
          | None => None
          | Some (false, x', c) => Some (false, x', c)
          | Some (true, x1, c1) => match recogS h n es x1 with None => None | Some (ok, x', c2) => Some (ok, x', plus c1 c2) end
          end
      end
  end
with recogL (h : bool) (n : nat) (e : expr) (x : list sym) : found :=
  match n with
  | O => None
  | S n =>
      match recog h n e x with
      | None => None
      | Some (false, x', c) => Some (false, x', c)
      | Some (true, x1, c1) => match recogL h n e x1 with None => None | Some (_, x', c2) => Some (true, x', plus c1 c2) end
      end
  end.

Section Sound.
Variables (m t : text).
Definition den (x : list sym) : text := flat_map (fun s => match s with Ch c => [c] | Hole => m | Tail => t end) x.

Lemma look_end : forall x, look x = Some None -> den x = [].
Proof. intros [|[c| |] x]; cbn [look]; try discriminate; [reflexivity|]. destruct (byte c <? 128); discriminate. Qed.
Lemma look_char : forall x r x', look x = Some (Some (r, x')) -> DecodeRune (den x) = (r, 1%nat) /\ skipn 1 (den x) = den x'.
Proof.
  intros [|[c| |] x] r x'; cbn [look]; try discriminate. destruct (byte c <? 128) eqn:E; [|discriminate]. intros H. inversion H; subst.
  unfold den. cbn [flat_map app]. split; [|reflexivity]. unfold DecodeRune. cbv zeta. rewrite E. reflexivity.
Qed.
Lemma symLit_sound : forall want x ok x', symLit want x = Some (ok, x') -> litText want (den x) = (ok, den x').
Proof.
  induction want as [|c want IH]; intros x ok x' H; cbn [symLit litText] in *; [inversion H; reflexivity|].
  destruct (look x) as [[[r x1]|]|] eqn:L; [| |discriminate].
  - apply look_char in L as [D S]. rewrite D. cbn [fst snd]. destruct (r =? byte c); [rewrite S; auto|inversion H; reflexivity].
  - apply look_end in L. rewrite L. inversion H; subst. rewrite L. cbn [DecodeRune fst]. pose proof (byte_range c). unfold RuneError.
    destruct (65533 =? byte c) eqn:E; [lia|reflexivity].
Qed.
Variable c0 : Z.
Definition price (c : cost) : Z := fst c + snd c * c0.
Lemma price_plus : forall a b, price (plus a b) = price a + price b.
Proof. intros [] []. unfold price, plus. cbn [fst snd]. lia. Qed.
Lemma T_weaken : forall e x ok x' c c', T e x ok x' c -> c' <= c -> T e x ok x' c'.
Proof. intros e x ok x' c c' H L n rule f s ok' v f' s' HX E. apply H in E; auto. intuition lia. Qed.

(** Costs are not negative. *)
Definition nn (c : cost) : Prop := 0 <= fst c /\ 0 <= snd c.
Lemma nn_plus : forall a b, nn a -> nn b -> nn (plus a b).
Proof. intros [] [] [] []. unfold nn, plus in *. cbn [fst snd] in *. lia. Qed.
Lemma nn_0 : nn (0, 0).
Proof. unfold nn. cbn. lia. Qed.

Hypothesis c0_pos : 0 <= c0.
Variable h : bool.
Hypothesis member : h = true -> forall y, T (ERule "StructMember") (m ++ y) true y c0.
Lemma recog_sound : forall n,
  (forall e x ok x' c, recog h n e x = Some (ok, x', c) -> nn c /\ T e (den x) ok (den x') (price c)) /\
  (forall es x ok x' c, recogA h n es x = Some (ok, x', c) -> nn c /\ TA es (den x) ok (den x') (price c)) /\
  (forall es x ok x' c, recogS h n es x = Some (ok, x', c) -> nn c /\ TS es (den x) ok (den x') (price c)) /\
  (forall e x k x' c, recogL h n e x = Some (k, x', c) -> nn c /\ TL e (den x) k (den x') (price c)).
Proof using c0_pos member.
  induction n as [|n (IE & IA & IS & IL)]; [split; [|split; [|split]]; intros until c; intros H; discriminate H|].
  assert (P0 : price (0, 0) = 0) by (unfold price; cbn [fst snd]; lia).
  split; [|split; [|split]].
  - intros e x ok x' c H. cbn [recog] in H. destruct e.
    + apply IE in H as [N H]. split; auto. apply T_act; auto.
    + destruct (look x) as [[[r x1]|]|] eqn:L; [| |discriminate]; inversion H; subst; rewrite P0; (split; [apply nn_0|]); apply T_any; unfold atEnd; cbn [rest].
      * apply look_char in L as [D S]. rewrite D. cbn [snd]. rewrite S. destruct ((r =? RuneError) && (1 =? 0)%nat) eqn:E; [cbn in E; lia|reflexivity].
      * apply look_end in L. rewrite L. reflexivity.
    + destruct (look x) as [[[r x1]|]|] eqn:L; [| |discriminate].
      * apply look_char in L as [D S].
        assert (E : (ok, den x') = (if atEnd (mkPst (den x) [] []) then (false, den x) else if inClass chars0 ranges (fst (DecodeRune (den x))) then (true, skipn (snd (DecodeRune (den x))) (den x)) else (false, den x))).
        { unfold atEnd. cbn [rest]. rewrite D. cbn [fst snd]. rewrite S. destruct ((r =? RuneError) && (1 =? 0)%nat) eqn:E; [cbn in E; lia|].
          destruct (inClass _ _ _); inversion H; reflexivity. }
        assert (C : c = (0, 0)) by (destruct (inClass _ _ _); inversion H; reflexivity). subst c. rewrite P0. split; [apply nn_0|]. apply T_class. exact E.
      * inversion H; subst. rewrite P0. split; [apply nn_0|]. apply T_class. apply look_end in L. rewrite L. reflexivity.
    + apply IA in H as [N H]. split; auto. apply T_choice; auto.
    + apply IE in H as [N H]. split; auto. apply T_label; auto.
    + destruct (symLit (textOf val) x) as [[ok1 x1]|] eqn:L; [|discriminate]. inversion H; subst. rewrite P0. split; [apply nn_0|].
      apply symLit_sound in L. apply T_lit in L. destruct ok; exact L.
    + destruct (recog h n e x) as [[[ok1 x1] c1]|] eqn:L; [|discriminate]. inversion H; subst. rewrite P0. split; [apply nn_0|].
      apply IE in L as [N L]. eapply T_not; [|exact L]. unfold price, nn in *. clear - N c0_pos. nia.
    + apply IL in H as [N H]. split; auto. apply T_plus; auto.
    + assert (E : (exists x1, x = Hole :: x1 /\ h = true /\ name = "StructMember" /\ ok = true /\ x' = x1 /\ c = (0, 1)) \/
                  (exists e c1, alookup name g = Some e /\ recog h n e x = Some (ok, x', c1) /\ c = plus (1, 0) c1)).
      { destruct x as [|[ch| |] x1].
        - right. destruct (alookup name g); [|discriminate]. destruct (recog h n e []) as [[[ok1 x2] c1]|] eqn:R; [|discriminate]. inversion H; subst. eauto.
        - right. destruct (alookup name g); [|discriminate]. destruct (recog h n e (Ch ch :: x1)) as [[[ok1 x2] c1]|] eqn:R; [|discriminate]. inversion H; subst. eauto.
        - left. destruct (h && String.eqb name "StructMember") eqn:R; [|discriminate]. apply andb_prop in R as [R1 R]. apply String.eqb_eq in R. inversion H; subst. eauto 10.
        - right. destruct (alookup name g); [|discriminate]. destruct (recog h n e (Tail :: x1)) as [[[ok1 x2] c1]|] eqn:R; [|discriminate]. inversion H; subst. eauto. }
      destruct E as [(x1 & -> & H1 & -> & -> & -> & ->)|(e & c1 & L & R & ->)].
      * split; [unfold nn; cbn; lia|]. replace (price (0, 1)) with c0 by (unfold price; cbn [fst snd]; lia). apply member; auto.
      * apply IE in R as [N R]. split; [apply nn_plus; auto; unfold nn; cbn; lia|].
        rewrite price_plus. replace (price (1, 0)) with 1 by (unfold price; cbn [fst snd]; lia). eapply T_rule; eauto.
    + destruct (recogS h n exprs x) as [[[ok1 x1] c1]|] eqn:L; [|discriminate]. inversion H; subst. apply IS in L as [N L]. split; auto.
      apply T_seq in L. destruct ok; exact L.
    + inversion H; subst. rewrite P0. split; [apply nn_0|]. apply T_state.
    + destruct (recogL h n e x) as [[[ok1 x1] c1]|] eqn:L; [|discriminate]. inversion H; subst. apply IL in L as [N L]. split; auto. eapply T_star; eauto.
    + destruct (recog h n e x) as [[[ok1 x1] c1]|] eqn:L; [|discriminate]. inversion H; subst. apply IE in L as [N L]. split; auto. eapply T_opt; eauto.
  - intros [|e es] x ok x' c H; cbn [recogA] in H.
    + inversion H; subst. rewrite P0. split; [apply nn_0|]. apply TA_nil.
    + destruct (recog h n e x) as [[[ok1 x1] c1]|] eqn:L; [|discriminate]. apply IE in L as [N L]. destruct ok1.
      * inversion H; subst. split; auto. apply TA_yes; auto.
      * destruct (recogA h n es x1) as [[[ok2 x2] c2]|] eqn:L2; [|discriminate]. apply IA in L2 as [N2 L2]. inversion H; subst.
        split; [apply nn_plus; auto|]. rewrite price_plus. eapply TA_no; eauto.
  - intros [|e es] x ok x' c H; cbn [recogS] in H.
    + inversion H; subst. rewrite P0. split; [apply nn_0|]. apply TS_nil.
    + destruct (recog h n e x) as [[[ok1 x1] c1]|] eqn:L; [|discriminate]. apply IE in L as [N L]. destruct ok1.
      * destruct (recogS h n es x1) as [[[ok2 x2] c2]|] eqn:L2; [|discriminate]. apply IS in L2 as [N2 L2]. inversion H; subst.
        split; [apply nn_plus; auto|]. rewrite price_plus. eapply TS_yes; eauto.
      * inversion H; subst. split; auto. apply TS_no; auto.
  - intros e x k x' c H; cbn [recogL] in H.
    destruct (recog h n e x) as [[[ok1 x1] c1]|] eqn:L; [|discriminate]. apply IE in L as [N L]. destruct ok1.
    + destruct (recogL h n e x1) as [[[ok2 x2] c2]|] eqn:L2; [|discriminate]. apply IL in L2 as [N2 L2]. inversion H; subst.
      split; [apply nn_plus; auto|]. rewrite price_plus. eapply TL_yes; eauto.
    + inversion H; subst. split; auto. apply TL_no; auto.
Qed.
Lemma recog_T : forall n e x ok x' c, recog h n e x = Some (ok, x', c) -> T e (den x) ok (den x') (price c).
Proof using c0_pos member. intros n e x ok x' c H. exact (proj2 (proj1 (recog_sound n) e x ok x' c H)). Qed.
End Sound.

