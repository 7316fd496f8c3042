(** Every report is about a number, about the encoding, or says what was
    expected. *)
From Coq Require Import ZArith String Ascii List Bool Lia ZifyBool ZifyNat.
From Verif Require Import Base Ast PegModel PegGrammar PegEngine PegRunes PegDescent PegConsume PegRefine PegRules PegTop
  PegUtf8 SyntaxSpec PegLexical PegReport PegReportProofs ReportSpec PegPlace PegReportTop.
Import ListNotations.
Open Scope string_scope.
Open Scope list_scope.
Open Scope Z_scope.

(* ---------- numbers ---------- *)

Definition badNum (t : list Z) (x : aerr) : Prop :=
  exists c, badNumber t c /\ match x with ESyntax => c = "invalid syntax" | ERange => c = "value out of range" | EUnknownDecl => False end.

(** What [number] finds: a literal, or a text that is reported. *)
Lemma number_or : forall i,
  (exists t r, gives number i t [] r /\ forall v x, ParseInt (fromCodes t) = (v, Some x) -> badNum t x) \/ fails number i.
Proof.
  intros i.
  assert (DX : forall class m, stops class m \/ exists ds r, digits class ds m r).
  { intros class [|c m]; [left; exact I|]. destruct (class c) eqn:E; [|left; exact E].
    right. destruct (span class m) as (cs & r & -> & F & S). exists (c :: cs), r.
    repeat split; auto; [discriminate|]. cbn. rewrite E, F. reflexivity. }
  assert (Z48 : forall v x, ParseInt (fromCodes [48]) = (v, Some x) -> badNum [48] x) by (intros v x H; discriminate H).
  destruct (lit_or "0x" i) as [[m E]|[N _]].
  { destruct (DX digit16 m) as [S|(ds & r & D)].
    - left. exists [48], (points "x" ++ m). split; auto. apply number_dec.
      + rewrite E. repeat split; auto. discriminate.
      + intros (h & m' & X & Y). rewrite E in X. apply app_inv_head in X. subst m. cbn in S. congruence.
      + intros (h & m' & X & Y). rewrite E in X. cbn in X. inversion X; subst h. discriminate Y.
    - left. pose proof D as (Nd & F & _). pose proof (parse_number 16 ds ltac:(auto) Nd F) as PN.
      exists (points "0x" ++ ds), r. split; [rewrite E; apply number_hex; exact D|].
      intros v x H. change (points "0x" ++ ds) with (numberText 16 ds) in H. rewrite PN in H.
      destruct (valueOf 16 ds <? 2 ^ 63) eqn:V; inversion H; subst. exists "value out of range". split; auto. apply large_hex; auto. lia. }
  destruct (lit_or "0" i) as [[m E]|[N0 _]].
  { destruct (DX digit8 m) as [S|(ds & r & D)].
    - destruct (DX digit10 m) as [S1|(ds & r & D)].
      + left. exists [48], m. split; auto. apply number_dec.
        * rewrite E. repeat split; auto. discriminate.
        * intros (h & m' & X & Y). eapply N. exact X.
        * intros (h & m' & X & Y). rewrite E in X. apply app_inv_head in X. subst m. cbn in S. congruence.
      + left. pose proof D as (Nd & F & St & Em). destruct ds as [|c ds]; [congruence|].
        cbn [forallb] in F. apply andb_prop in F. destruct F as [Fc F].
        assert (C : c = 56 \/ c = 57) by (subst m; cbn in S; unfold digit8, digit10, between in *; lia).
        exists (48 :: c :: ds), r. split.
        * apply number_dec.
          -- rewrite E, Em. repeat split; [discriminate| |auto]. cbn. rewrite Fc, F. reflexivity.
          -- intros (h & m' & X & _). eapply N. exact X.
          -- intros (h & m' & X & Y). rewrite E, Em in X. cbn in X. inversion X; subst h.
             unfold digit8, between in Y. lia.
        * change (fromCodes (48 :: c :: ds)) with (octet 48 :: octet c :: fromCodes ds). intros v x H.
          assert (X : x = ESyntax) by (destruct C as [-> | ->]; unfold ParseInt in H; destruct (fromCodes ds); inversion H; reflexivity).
          subst x. exists "invalid syntax". split; auto. exact (bad_octal c ds C F).
    - left. pose proof D as (Nd & F & _). pose proof (parse_number 8 ds ltac:(auto) Nd F) as PN.
      exists (points "0" ++ ds), r. split; [rewrite E; apply number_oct; exact D|].
      intros v x H. change (points "0" ++ ds) with (numberText 8 ds) in H. rewrite PN in H.
      destruct (valueOf 8 ds <? 2 ^ 63) eqn:V; inversion H; subst. exists "value out of range". split; auto. apply large_octal; auto. lia. }
  destruct (DX digit10 i) as [S|(ds & r & D)].
  - right. unfold number. apply fails_texted. apply fails_or; [|apply fails_or].
    + apply hex_fails. intros (h & m & X & _). eapply N. exact X.
    + apply octal_fails. intros (h & m & X & _). eapply N0. exact X.
    + eapply some1_fails; [apply class_dec|exact S].
  - left. pose proof D as (Nd & F & _ & E). assert (Hh : hd 0 ds <> 48).
    { destruct ds as [|c ds]; [congruence|]. cbn. intros ->. eapply N0. rewrite E. reflexivity. }
    pose proof (parse_number 10 ds ltac:(auto) Nd F) as PN. exists ds, r. split.
    + apply number_dec; [exact D| |].
      * intros (h & m & X & _). eapply N. exact X.
      * intros (h & m & X & _). eapply N0. exact X.
    + intros v x H. change ds with (numberText 10 ds) in H at 1. rewrite PN in H.
      destruct (valueOf 10 ds <? 2 ^ 63) eqn:V; inversion H; subst. exists "value out of range". split; auto. apply large_decimal; auto. lia.
Qed.

Definition numberExpr : expr := EChoice [ERule "HexLiteral"; ERule "OctalLiteral"; ERule "DecimalLiteral"].
Lemma rIntLiteral_eq : rIntLiteral = EAct onIntLiteral1 numberExpr.
Proof. reflexivity. Qed.

(** States that the descent can follow. *)
Definition typed (s : pst) : Prop := exists ss, ling s = map VStruct ss.
Lemma typed_srel : forall s, typed s -> exists d, srel s d /\ drest d = runes (rest s).
Proof. intros s (ss & E). exists (mkD (runes (rest s)) ss (real (errs s))). split; [split; auto|reflexivity]. Qed.

Lemma number_run : forall n s v f' s', typed s -> parseExpr g n numberExpr [] s = Ok (true, v, f', s') ->
  exists t, rest s = fromCodes t ++ rest s' /\ forall w x, ParseInt (fromCodes t) = (w, Some x) -> badNum t x.
Proof.
  intros n s v f' s' T H. destruct (typed_srel s T) as (d & R & Ed).
  assert (B : body (len d) numberExpr (hex <|> octal <|> decimal) anyV).
  { apply part_body, part_choice. apply alts_or; [apply part_body, R_Hex|]. apply alts_or; [apply part_body, R_Octal|]. apply alts_one, part_body, R_Decimal. }
  specialize (B s d R (le_n _)). pose proof (number_or (drest d)) as NO.
  destruct ((hex <|> octal <|> decimal) d) as [er|a d'] eqn:E.
  - destruct B as (f2 & s2 & H2 & _). pose proof (runs_fun _ _ _ _ _ _ (ex_intro _ n H) H2) as X. discriminate X.
  - destruct B as (v2 & f2 & s2 & H2 & R2 & _). pose proof (runs_fun _ _ _ _ _ _ (ex_intro _ n H) H2) as X. inversion X; subst v2 f2 s2. clear X.
    destruct (ascii_number _ _ _ E) as (t & T1 & T2).
    pose proof (run_moved _ _ _ _ _ _ _ _ _ H) as M. destruct (m_runes _ _ M) as (cs & S & _).
    assert (cs = t).
    { pose proof (steps_runes _ _ _ S) as S2. rewrite <- (r_rest _ _ R), <- (r_rest _ _ R2) in S2.
      rewrite T1 in S2. eapply app_inv_tail; eauto. }
    subst cs. apply steps_ascii in S; auto. exists t. split; [exact S|].
    assert (G : number d = Done t d').
    { unfold number, texted. rewrite E. f_equal. rewrite T1, app_length.
      replace (length t + length (drest d') - length (drest d'))%nat with (length t) by lia.
      rewrite firstn_app, firstn_all, Nat.sub_diag. cbn. apply app_nil_r. }
    destruct NO as [(t2 & r2 & G2 & K)|F].
    + destruct d as [i l e]. cbn [drest] in *. rewrite G2 in G. inversion G; subst. exact K.
    + destruct d as [i l e]. cbn [drest] in *. rewrite F in G. discriminate.
Qed.

(* ---------- actions that report nothing ---------- *)

Definition quietAct (run : action) : Prop := forall t f l v er, run t f l = Ok (v, er) -> er = None.

(** An action after a sequence that the descent follows. *)
Lemma quiet_seq : forall A (run : action) es (V : A -> value -> Prop),
  (forall N, exists p : P A, seqs N es [] p (fun a d f _ => forall t, exists v, run t f (map VStruct (dling d)) = Ok (v, None) /\ V a v)) ->
  forall n s v f' s', typed s -> parseExpr g n (ESeq es) [] s = Ok (true, v, f', s') ->
  forall t w er, run t f' (ling s') = Ok (w, er) -> er = None.
Proof.
  intros A run es V H n s v f' s' T E t w er R0. destruct (typed_srel s T) as (d & R & _).
  destruct (H (len d)) as (p & Hp). specialize (Hp s d R (le_n _)). destruct (p d) as [e0|a d'].
  - destruct Hp as (vs & f2 & s2 & H2 & _). pose proof (runs_seq_fail _ _ _ _ _ _ _ H2) as X.
    pose proof (runs_fun _ _ _ _ _ _ (ex_intro _ n E) X) as Y. discriminate Y.
  - destruct Hp as (vs & f2 & s2 & H2 & R2 & Q). pose proof (runs_seq _ _ _ _ _ _ _ H2) as X.
    pose proof (runs_fun _ _ _ _ _ _ (ex_intro _ n E) X) as Y. inversion Y; subst. destruct (Q t) as (v2 & E2 & _).
    rewrite <- (r_ling _ _ R2) in E2. rewrite E2 in R0. inversion R0. reflexivity.
Qed.

Lemma quiet_type : forall n s v f' s', typed s -> parseExpr g n (ESeq [ELit "u"; ELabel "b" (EChoice [ELit "8"; ELit "16"; ELit "32"; ELit "64"])]) [] s = Ok (true, v, f', s') ->
  forall t w er, onIntType1 t f' (ling s') = Ok (w, er) -> er = None.
Proof.
  apply (quiet_seq Z onIntType1 _ (fun a v => v = VType (TInt a None))). intros N. exists intTypeP. unfold intTypeP. step.
  eapply seqs_last_label with (V := sizeV); [discriminate| |].
  - unfold sizeP. apply part_body, part_choice.
    apply alts_or; [apply body_size; reflexivity|].
    apply alts_or; [apply body_size; reflexivity|].
    apply alts_or; [apply body_size; reflexivity|].
    apply alts_one; apply body_size; reflexivity.
  - intros a0 v0 d (t & -> & E) t0. eexists. unfold onIntType1. look. rewrite E. split; reflexivity.
Qed.

Lemma quiet_file : forall n s v f' s', typed s -> parseExpr g n (ESeq [ERule "_"; ELabel "ds" (EStar (ERule "Declaration")); ERule "_"; ERule "EOF"]) [] s = Ok (true, v, f', s') ->
  forall t w er, onFile1 t f' (ling s') = Ok (w, er) -> er = None.
Proof.
  apply (quiet_seq file onFile1 _ (fun _ _ => True)). intros N. exists (fileP (S N)).
  pose proof (R_Declaration N (S N) (le_n _)) as H. unfold fileP. step.
  eapply seqs_label; [discriminate|peg|]. intros ds w1 (vs & -> & F). step. step.
  apply seqs_ling. intros d t. unfold onFile1. look.
  rewrite (sortDecls_spec (vs ++ map VStruct (dling d)) (ds ++ map DStruct (dling d))).
  - eexists. split; [reflexivity|exact I].
  - apply Forall2_app; auto. induction (dling d); cbn; constructor; auto. reflexivity.
Qed.

(** Expressions without state code whose actions report nothing, and whose rules
    exist; the top rule is not among them. *)
Fixpoint calm (e : expr) : Prop :=
  match e with
  | EAct run e => quietAct run /\ calm e
  | EAny | EClass _ _ | ELit _ => True
  | EChoice es | ESeq es => (fix all (l : list expr) : Prop := match l with [] => True | e :: l => calm e /\ all l end) es
  | ELabel _ e | ENot e | EPlus e | EStar e | EOpt e => calm e
  | ERule name => name <> "File" /\ alookup name g <> None
  | EState _ => False
  end.
Lemma calm_in : forall es e, (fix all (l : list expr) : Prop := match l with [] => True | e :: l => calm e /\ all l end) es -> In e es -> calm e.
Proof. induction es as [|x es IH]; intros e H J; [destruct J|]. destruct H as [H1 H2]. destruct J as [<-|J]; auto. Qed.

Lemma rule_exists : forall name, existsb (String.eqb name) (map fst g) = true -> alookup name g <> None.
Proof.
  intros name. induction g as [|[n e] l IH]; [discriminate|]. cbn [map fst existsb alookup]. destruct (String.eqb name n); [discriminate|exact IH].
Qed.
Ltac quiet := match goal with |- quietAct ?a => unfold a, quietAct, pass, give end; let H := fresh in intros ? ? ? ? ? H; cbv beta in H;
  repeat match type of H with
  | bind _ _ = _ => apply bind_ok in H as (? & _ & H)
  end; congruence.
Ltac calmly := cbn [calm]; repeat match goal with
  | |- _ /\ _ => split
  | |- True => exact I
  | |- quietAct _ => quiet
  | |- _ <> "File" => discriminate
  | |- alookup _ _ <> None => apply rule_exists; vm_compute; reflexivity
  end.
Definition special (name : string) : Prop := In name ["File"; "IntLiteral"; "IntType"; "StructRef"].
Lemma rules_calm : forall name e, alookup name g = Some e -> special name \/ calm e.
Proof.
  intros name e H. assert (J : In (name, e) g).
  { clear -H. induction g as [|[n x] l IH]; [discriminate|]. cbn [alookup] in H. destruct (String.eqb name n) eqn:E.
    - apply String.eqb_eq in E. inversion H; subst. left. reflexivity.
    - right. auto. }
  clear H. unfold special. unfold g in J.
  repeat (destruct J as [J|J]; [inversion J; subst; clear J; first [left; cbn; tauto | right; match goal with |- calm ?x => unfold x end; calmly]|]). destruct J.
Qed.

(* ---------- all reports ---------- *)

Definition kind (data : text) (r : report) : Prop :=
  (rrule r = "IntLiteral" /\ exists a t b x, data = a ++ fromCodes t ++ b /\ offset (rpos r) = Z.of_nat (length a) /\
     badNum t x /\ rtext r = errText (fromCodes t) x) \/
  (rtext r = "invalid encoding" /\ exists a b, data = a ++ b /\ offset (rpos r) = Z.of_nat (length a) /\ invalid b = true).

Record fine (data : text) (s : rst) : Prop := {
  f_placed : placed data s;
  f_typed : typed (base s);
  f_kinds : forall r, In r (reports s) -> kind data r /\ rexpected r = [] }.

Lemma at_split : forall data p r, PegPlace.at_ data p r -> exists a, data = a ++ r /\ offset p = Z.of_nat (length a).
Proof.
  intros data p r (cs & S & _ & O). apply steps_bytes in S as (a & ->). exists a. split; auto. rewrite app_length in O. lia.
Qed.

Lemma fine_tick : forall data s, fine data s -> fine data (tick s).
Proof. intros data s [[A B C] T K]. constructor; [constructor|..]; auto. Qed.
Lemma fine_inv : forall data b s, fine data s -> fine data (withInverted b s).
Proof. intros data b s [[A B C] T K]. constructor; [constructor|..]; auto. Qed.
Lemma fine_restore : forall data s0 s, fine data s0 -> fine data s -> fine data (restoreR s0 (restoreStateR s0 s)).
Proof. intros data s0 s [[A0 B0 C0] T0 K0] [[A B C] T K]. constructor; [constructor|..]; auto. Qed.
Lemma fine_restoreR : forall data s0 s, fine data s0 -> fine data s -> fine data (restoreR s0 s).
Proof. intros data s0 s [[A0 B0 C0] T0 K0] [[A B C] T K]. constructor; [constructor|..]; auto. Qed.
Lemma fine_state : forall data s0 s, fine data s0 -> fine data s -> fine data (restoreStateR s0 s).
Proof. intros data s0 s [[A0 B0 C0] T0 K0] [[A B C] T K]. constructor; [constructor|..]; auto. Qed.
Lemma fine_fail : forall data b s0 w s, fine data s0 -> fine data s -> fine data (failAt b (pt s0) w s).
Proof.
  intros data b s0 w s [[A0 B0 C0] T0 K0] [[A B C] T K]. unfold failAt. destruct (Bool.eqb b (inverted s)); [|constructor; [constructor|..]; auto].
  destruct (_ <? _); [constructor; [constructor|..]; auto|]. destruct (_ <? _); (constructor; [constructor; auto; right; cbn [far]; eauto|auto|auto]).
Qed.
Lemma fine_read : forall data rule s, fine data s -> atEnd (base s) = false -> fine data (readR rule s).
Proof.
  intros data rule s [[A B C] T K] E. apply notEnd in E. pose proof (at_next _ _ _ A E) as N.
  assert (RB : rest (read (base s)) = skipn (snd (DecodeRune (rest (base s)))) (rest (base s))) by (unfold read; destruct (invalid _); reflexivity).
  assert (LB : ling (read (base s)) = ling (base s)) by (unfold read; destruct (invalid _); reflexivity).
  assert (TB : typed (read (base s))) by (destruct T as (ss & T); exists ss; congruence).
  unfold readR, arrive. rewrite RB. destruct (invalid (skipn _ _)) eqn:V; (constructor; [constructor|..]);
    cbn [pt far reports base addReport withPt withBase]; rewrite ?RB; auto.
  - intros q J. apply in_app_iff in J as [J|[<-|[]]]; auto. right. cbn [rpos]. eauto.
  - intros q J. apply in_app_iff in J as [J|[<-|[]]]; auto. split; [|reflexivity]. right. cbn [rtext rpos]. split; auto.
    destruct (at_split _ _ _ N) as (a & Ea & Oa). exists a. eexists. split; [exact Ea|]. split; auto.
Qed.
Lemma fine_lit : forall data rule want s, fine data s -> fine data (snd (litLoopR rule want s)).
Proof.
  intros data rule. induction want as [|c want IH]; intros s H; cbn [litLoopR]; [exact H|].
  destruct (PegModel.rune (base s) =? byte c) eqn:E; [|exact H]. apply IH, fine_read; auto. eapply lit_notEnd; eauto.
Qed.
Lemma fine_number : forall data s0 s t x, fine data s0 -> fine data s -> rest (base s0) = fromCodes t ++ rest (base s) -> badNum t x ->
  fine data (optReport "IntLiteral" (pt s0) (sliceFrom (rest (base s0)) (rest (base s))) (Some x) s).
Proof.
  intros data s0 s t x [[A0 B0 C0] T0 K0] [[A B C] T K] E N. rewrite E, slice_app.
  destruct (at_split _ _ _ A0) as (a & Ea & Oa). rewrite E in Ea.
  constructor; [constructor|..]; auto; cbn [optReport reports addReport].
  - intros q J. apply in_app_iff in J as [J|[<-|[]]]; auto. right. cbn [rpos]. eauto.
  - intros q J. apply in_app_iff in J as [J|[<-|[]]]; auto. split; [|reflexivity]. left. cbn [rrule rtext rpos]. split; auto.
    exists a, t, (rest (base s)), x. auto.
Qed.

Lemma struct_value : forall n rule f s v f' s', typed (base s) -> exprR g n rule (ERule "StructDecl") f s = Ok (true, v, f', s') -> exists st, v = VStruct st.
Proof.
  intros n rule f s v f' s' T H. destruct (typed_srel _ T) as (d & R & _).
  assert (P : parseExpr g n (ERule "StructDecl") f (base s) = Ok (true, v, f', base s')) by (rewrite <- (expr_erases g n rule), H; reflexivity).
  pose proof (R_StructDecl (len d) (S (len d)) (le_n _) f (base s) d R (le_n _)) as X. destruct (structDecl (S (len d)) d) as [er|a d'].
  - destruct X as (s2 & X & _). pose proof (runs_fun _ _ _ _ _ _ (ex_intro _ n P) X) as Y. discriminate Y.
  - destruct X as (v2 & s2 & X & _ & V). pose proof (runs_fun _ _ _ _ _ _ (ex_intro _ n P) X) as Y. inversion Y; subst. exists a. exact V.
Qed.

Section Fine.
Variable data : text.
Definition stays {A} (x : outcome (A * rst)) : Prop := forall a s, x = Ok (a, s) -> fine data s.

Lemma fines : forall n,
  (forall rule e f s, calm e -> fine data s -> stays (exprR g n rule e f s)) /\
  (forall rule es f s, (forall e, In e es -> calm e) -> fine data s -> stays (altsR g n rule es f s)) /\
  (forall rule es f s, (forall e, In e es -> calm e) -> fine data s -> stays (seqR g n rule es f s)) /\
  (forall rule e s, calm e -> fine data s -> stays (loopR g n rule e s)).
Proof.
  unfold stays. induction n as [n IHn] using (well_founded_induction lt_wf). destruct n as [|n]; [refine (conj _ (conj _ (conj _ _))); intros; discriminate|].
  destruct (IHn n ltac:(lia)) as (IE & IA & IS & IL). refine (conj _ (conj _ (conj _ _))).
  - intros rule e f s Ce Hs a s1 H. apply fine_tick in Hs.
    rewrite exprR_S in H; cbv zeta in H; set (s0 := tick s) in *; clearbody s0; destruct e.
    + destruct Ce as [Q Ce]. apply bind_ok in H as ([[[ok v] f'] s'] & H1 & H). apply IE in H1; auto. destruct ok.
      * apply bind_ok in H as ([v' er] & H2 & H). apply Q in H2. subst er. inversion H; subst. exact H1.
      * inversion H; subst; auto.
    + unfold anyR in H. destruct (atEnd (base s0)) eqn:E; inversion H; subst; apply fine_fail; auto. apply fine_read; auto.
    + unfold classR in H. destruct (atEnd (base s0)) eqn:E; [inversion H; subst; apply fine_fail; auto|].
      destruct (inClass _ _ _); inversion H; subst; apply fine_fail; auto. apply fine_read; auto.
    + eapply IA; eauto. intros e J. eapply calm_in; eauto.
    + apply bind_ok in H as ([[[ok v] f'] s'] & H1 & H). apply IE in H1; auto. inversion H; subst; auto.
    + unfold litR in H. pose proof (fine_lit data rule (textOf val) s0 Hs) as J. destruct (litLoopR rule (textOf val) s0) as [ok s']. cbn [snd] in J.
      destruct ok; inversion H; subst; [apply fine_fail; auto|]. apply fine_restoreR; auto. apply fine_fail; auto.
    + apply bind_ok in H as ([[[ok v] f'] s'] & H1 & H). apply IE in H1; auto; [|apply fine_inv; auto]. inversion H; subst.
      apply fine_restore; auto. apply fine_inv; auto.
    + apply bind_ok in H as ([[ok vs] s'] & H1 & H). apply IL in H1; auto. destruct vs; inversion H; subst; auto.
    + destruct Ce as [NF ND]. destruct (alookup name g) as [e|] eqn:L; [|congruence].
      apply bind_ok in H as ([[[ok v] f'] s'] & H1 & H). assert (E1 : s1 = s') by (inversion H; reflexivity). subst s1. clear H.
      destruct (rules_calm _ _ L) as [Sp|Ce]; [|eapply IE; eauto].
      destruct Sp as [<-|[<-|[<-|[<-|[]]]]]; [congruence| | |]; inversion L; subst e; clear L.
      * (* IntLiteral *)
        destruct n as [|n]; [discriminate|]. destruct (IHn n ltac:(lia)) as (IE' & _).
        change (exprR g (S n) "IntLiteral" (EAct onIntLiteral1 numberExpr) [] s0 = Ok (ok, v, f', s')) in H1.
        rewrite exprR_S in H1; cbv zeta in H1. apply bind_ok in H1 as ([[[ok2 v2] f2] s2] & H2 & H1).
        apply fine_tick in Hs. set (s3 := tick s0) in *. clearbody s3.
        assert (F2 : fine data s2) by (eapply IE'; [|exact Hs|exact H2]; unfold numberExpr; calmly). destruct ok2; [|inversion H1; subst; auto].
        apply bind_ok in H1 as ([v' er] & H3 & H1). inversion H1; subst. clear H1. destruct er as [x|]; [|exact F2].
        assert (P : parseExpr g n numberExpr [] (base s3) = Ok (true, v2, f', base s2)).
        { rewrite <- (expr_erases g n "IntLiteral"), H2. reflexivity. }
        destruct (number_run _ _ _ _ _ (f_typed _ _ Hs) P) as (t & Et & K). eapply fine_number; eauto.
        unfold onIntLiteral1 in H3. rewrite Et, slice_app in H3. destruct (ParseInt (fromCodes t)) as [w er] eqn:PI. inversion H3; subst. eapply K; reflexivity.
      * (* IntType *)
        destruct n as [|n]; [discriminate|]. destruct (IHn n ltac:(lia)) as (IE' & _).
        set (sq := ESeq [ELit "u"; ELabel "b" (EChoice [ELit "8"; ELit "16"; ELit "32"; ELit "64"])]).
        change (exprR g (S n) "IntType" (EAct onIntType1 sq) [] s0 = Ok (ok, v, f', s')) in H1.
        rewrite exprR_S in H1; cbv zeta in H1. apply bind_ok in H1 as ([[[ok2 v2] f2] s2] & H2 & H1).
        apply fine_tick in Hs. set (s3 := tick s0) in *. clearbody s3.
        assert (F2 : fine data s2) by (eapply IE'; [|exact Hs|exact H2]; unfold sq; calmly). destruct ok2; [|inversion H1; subst; auto].
        apply bind_ok in H1 as ([v' er] & H3 & H1). inversion H1; subst. clear H1.
        assert (P : parseExpr g n sq [] (base s3) = Ok (true, v2, f', base s2)).
        { rewrite <- (expr_erases g n "IntType"), H2. reflexivity. }
        rewrite (quiet_type _ _ _ _ _ (f_typed _ _ Hs) P _ _ _ H3). exact F2.
      * (* StructRef *)
        destruct n as [|n]; [discriminate|]. destruct (IHn n ltac:(lia)) as (IE' & IA' & _).
        set (sq := ESeq [ELabel "s" (ERule "StructDecl"); EState onStructRef6]).
        set (other := EAct onStructRef7 (ELabel "n" (ERule "StructIdentifier"))).
        change (exprR g (S n) "StructRef" (EChoice [EAct onStructRef2 sq; other]) [] s0 = Ok (ok, v, f', s')) in H1.
        rewrite exprR_S in H1; cbv zeta in H1. apply fine_tick in Hs. set (s3 := tick s0) in *. clearbody s3.
        destruct n as [|n]; [discriminate|]. rewrite altsR_S in H1. apply bind_ok in H1 as ([[[ok2 v2] f2] s2] & HB & H1).
        assert (F2 : fine data s2).
        { destruct n as [|n]; [discriminate|]. rewrite exprR_S in HB; cbv zeta in HB. apply fine_tick in Hs. set (s4 := tick s3) in *. clearbody s4.
          apply bind_ok in HB as ([[[ok5 v5] f5] s5] & HC & HB).
          assert (F5 : fine data s5).
          { clear HB. unfold sq in HC. destruct n as [|n]; [discriminate|]. rewrite exprR_S in HC; cbv zeta in HC. apply fine_tick in Hs.
            set (s6 := tick s4) in *. clearbody s6. apply bind_ok in HC as ([[[ok7 v7] f7] s7] & HD & HC).
            assert (F7 : fine data s7).
            { clear HC. destruct n as [|n]; [discriminate|]. rewrite seqR_S in HD. apply bind_ok in HD as ([[[ok8 v8] f8] s8] & HE & HD).
              destruct n as [|n]; [discriminate|]. rewrite exprR_S in HE; cbv zeta in HE. apply bind_ok in HE as ([[[ok9 v9] f9] s9] & HF & HE).
              apply fine_tick in Hs. set (s10 := tick s6) in *. clearbody s10.
              assert (F9 : fine data s9) by (destruct (IHn n ltac:(lia)) as (IE2 & _); eapply IE2; [|exact Hs|exact HF]; calmly).
              destruct ok9; inversion HE; subst ok8 v8 f8 s8; clear HE; [|inversion HD; subst; exact F9].
              apply bind_ok in HD as ([[[ok11 v11] f11] s11] & HG & HD). inversion HD; subst. clear HD.
              rewrite seqR_S in HG. apply bind_ok in HG as ([[[ok12 v12] f12] s12] & HH & HG).
              destruct n as [|n]; [discriminate|]. rewrite exprR_S in HH; cbv zeta in HH. inversion HH; subst. clear HH.
              rewrite seqR_S in HG. cbn [bind] in HG. inversion HG; subst. clear HG.
              apply fine_tick in F9. destruct F9 as [[A B C] T K]. constructor; [constructor|..]; auto.
              cbn [base withBase]. destruct (struct_value _ _ _ _ _ _ _ (f_typed _ _ Hs) HF) as (st & ->). destruct T as (ss & T).
              exists (ss ++ [st]). rewrite map_app, <- T. unfold onStructRef6, addLingeringDeclaration. f_equal. unfold label. reflexivity. }
            destruct ok7; inversion HC; subst; auto. apply fine_restore; auto. }
          destruct ok5; [|inversion HB; subst; exact F5].
          apply bind_ok in HB as ([v' er] & HC2 & HB). assert (Q : quietAct onStructRef2) by quiet. apply Q in HC2. subst er. inversion HB; subst. exact F5. }
        destruct ok2; [inversion H1; subst; exact F2|]. destruct (IHn n ltac:(lia)) as (_ & IA2 & _).
        eapply IA2 in H1; [exact H1| |apply fine_state; [exact Hs|exact F2]]. intros e [<-|[]]. unfold other. calmly.
    + apply bind_ok in H as ([[[ok vs] f'] s'] & H1 & H). apply IS in H1; auto; [|intros e J; eapply calm_in; eauto].
      destruct ok; inversion H; subst; auto. apply fine_restore; auto.
    + destruct Ce.
    + apply bind_ok in H as ([[ok vs] s'] & H1 & H). apply IL in H1; auto. inversion H; subst; auto.
    + apply bind_ok in H as ([[[ok v] f'] s'] & H1 & H). apply IE in H1; auto. inversion H; subst; auto.
  - intros rule [|e es] f s Ce Hs a s1 H; rewrite altsR_S in H; [inversion H; subst; auto|].
    apply bind_ok in H as ([[[ok v] f'] s'] & H1 & H). apply IE in H1; auto; [|apply Ce; left; auto]. destruct ok; [inversion H; subst; auto|].
    eapply IA in H; eauto; [intros; apply Ce; right; auto|]. apply fine_state; auto.
  - intros rule [|e es] f s Ce Hs a s1 H; rewrite seqR_S in H; [inversion H; subst; auto|].
    apply bind_ok in H as ([[[ok v] f'] s'] & H1 & H). apply IE in H1; auto; [|apply Ce; left; auto]. destruct ok; [|inversion H; subst; auto].
    apply bind_ok in H as ([[[ok' vs] f''] s''] & H2 & H). apply IS in H2; auto; [|intros; apply Ce; right; auto]. inversion H; subst; auto.
  - intros rule e s Ce Hs a s1 H; rewrite loopR_S in H.
    apply bind_ok in H as ([[[ok v] f'] s'] & H1 & H). apply IE in H1; auto. destruct ok; [|inversion H; subst; auto].
    apply bind_ok in H as ([[ok' vs] s''] & H2 & H). apply IL in H2; auto. inversion H; subst; auto.
Qed.
End Fine.

Lemma fine_start : forall data, fine data (startR data).
Proof.
  intros data. constructor; [apply placed_start|exists []; rewrite base_start; destruct (invalid data); reflexivity|].
  unfold startR, arrive. cbn [base].
  assert (RB : forall e, rest (if invalid data then addErr e (mkPst data [] []) else mkPst data [] []) = data) by (intros; destruct (invalid data); reflexivity).
  rewrite !RB. destruct (invalid data) eqn:V; intros r J; [|destruct J]. destruct J as [<-|[]]. split; auto. right. cbn [rtext rpos]. split; auto.
  exists [], data. split; auto. split; auto. unfold next. destruct (_ =? 10); reflexivity.
Qed.

Lemma fine_file : forall data n ok v f s, exprR g n "" (ERule "File") [] (startR data) = Ok (ok, v, f, s) -> fine data s.
Proof.
  intros data n ok v f s H. pose proof (fine_start data) as Hs. set (s0 := startR data) in *. clearbody s0.
  destruct n as [|n]; [discriminate|]. rewrite exprR_S in H; cbv zeta in H. change (alookup "File" g) with (Some rFile) in H. cbv iota in H.
  apply bind_ok in H as ([[[ok1 v1] f1] s1] & H1 & H). inversion H; subst. clear H. apply fine_tick in Hs. set (s1 := tick s0) in *. clearbody s1.
  destruct n as [|n]; [discriminate|]. unfold rFile in H1. rewrite exprR_S in H1; cbv zeta in H1.
  apply bind_ok in H1 as ([[[ok2 v2] f2] s2] & H2 & H1). apply fine_tick in Hs. set (s3 := tick s1) in *. clearbody s3.
  assert (F2 : fine data s2) by (eapply (proj1 (fines data n)); [|exact Hs|exact H2]; calmly).
  destruct ok2; [|inversion H1; subst; exact F2]. apply bind_ok in H1 as ([v' er] & H3 & H1). inversion H1; subst. clear H1.
  assert (P : parseExpr g n (ESeq [ERule "_"; ELabel "ds" (EStar (ERule "Declaration")); ERule "_"; ERule "EOF"]) [] (base s3) = Ok (true, v2, f1, base s2))
    by (rewrite <- (expr_erases g n "File"), H2; reflexivity).
  rewrite (quiet_file _ _ _ _ _ (f_typed _ _ Hs) P _ _ _ H3). exact F2.
Qed.

(* ---------- a failure leaves something that was expected ---------- *)

(** Predicates are tested on single tokens only. *)
Definition token (e : expr) : bool :=
  match e with EAny | ELit _ => true | ERule n => String.eqb n "EOL" | _ => false end.
Fixpoint plain (e : expr) : bool :=
  match e with
  | EAct _ e | ELabel _ e | EPlus e | EStar e | EOpt e => plain e
  | EAny | EClass _ _ | ELit _ | EState _ => true
  | EChoice es => negb (Nat.eqb (length es) 0) && forallb plain es
  | ESeq es => forallb plain es
  | ENot e => token e
  | ERule n => existsb (String.eqb n) (map fst g)
  end.
Lemma rules_plain : forallb (fun r => plain (snd r)) g = true.
Proof. vm_compute. reflexivity. Qed.
Lemma rule_plain : forall name e, alookup name g = Some e -> plain e = true.
Proof.
  intros name e H. pose proof rules_plain as R. rewrite forallb_forall in R. apply (R (name, e)).
  clear R. revert H. generalize g. intros l. induction l as [|[n x] l IH]; intros H; [discriminate|]. cbn [alookup] in H.
  destruct (String.eqb name n) eqn:E; [|right; auto]. apply String.eqb_eq in E. inversion H; subst. left. reflexivity.
Qed.

Section Wants.
Variable data : text.
Record keeping (s : rst) : Prop := { k_placed : placed data s; k_far : wants s = [] -> offset (far s) = 0 }.

(** What becomes of the expected things between two states. *)
Definition later (ok : bool) (s s' : rst) : Prop :=
  keeping s' /\ inverted s' = inverted s /\ (wants s <> [] -> wants s' <> []) /\ (ok = inverted s -> wants s' <> []).
Definition laterR {A} (s : rst) (x : outcome (bool * A * rst)) : Prop := forall ok a s', x = Ok (ok, a, s') -> later ok s s'.

Lemma keeping_eq : forall s s', keeping s -> placed data s' -> far s' = far s -> wants s' = wants s -> keeping s'.
Proof. intros s s' [A B] P F W. constructor; auto. rewrite F, W. exact B. Qed.
Lemma fail_keeps : forall b s0 w s, keeping s0 -> keeping s -> placed data (failAt b (pt s0) w s) -> 
  keeping (failAt b (pt s0) w s) /\ inverted (failAt b (pt s0) w s) = inverted s /\
  (wants s <> [] -> wants (failAt b (pt s0) w s) <> []) /\ (b = inverted s -> wants (failAt b (pt s0) w s) <> []).
Proof.
  intros b s0 w s K0 K P. pose proof (at_range _ _ (or_intror (ex_intro _ _ (p_pt _ _ (k_placed _ K0))))) as R.
  unfold failAt in *. destruct (Bool.eqb b (inverted s)) eqn:E.
  - destruct (offset (pt s0) <? offset (far s)) eqn:L.
    + split; auto. split; auto. split; auto. intros _ N. apply (k_far _ K) in N. lia.
    + destruct (offset (far s) <? offset (pt s0)); cbn [wants inverted]; (split; [constructor; auto; cbn [wants]|]);
        try (split; [reflexivity|split; intros _; try discriminate; intros N; apply app_eq_nil in N as [_ N]; discriminate N]).
      * discriminate.
      * intros N; apply app_eq_nil in N as [_ N]; discriminate N.
  - split; auto. split; auto. split; auto. intros ->. rewrite Bool.eqb_reflx in E. discriminate.
Qed.
Lemma keeping_tick : forall s, keeping s -> keeping (tick s).
Proof. intros s [[A B C] K]. constructor; [constructor|]; auto. Qed.
Lemma keeping_inv : forall b s, keeping s -> keeping (withInverted b s).
Proof. intros b s [[A B C] K]. constructor; [constructor|]; auto. Qed.
Lemma keeping_state : forall s0 s, keeping s -> keeping (restoreStateR s0 s).
Proof. intros s0 s [[A B C] K]. constructor; [constructor|]; auto. Qed.
Lemma keeping_restore : forall s0 s, keeping s0 -> keeping s -> keeping (restoreR s0 s).
Proof. intros s0 s [[A0 B0 C0] K0] [[A B C] K]. constructor; [constructor|]; auto. Qed.
Lemma keeping_report : forall s0 rule t er s, keeping s0 -> keeping s -> keeping (optReport rule (pt s0) t er s).
Proof.
  intros s0 rule t [x|] s [[A0 B0 C0] K0] [[A B C] K]; constructor; try constructor; auto.
  cbn [optReport reports addReport]. intros q J. apply in_app_iff in J as [J|[<-|[]]]; auto. right. cbn [rpos]. eauto.
Qed.
Lemma keeping_read : forall rule s, keeping s -> atEnd (base s) = false -> keeping (readR rule s).
Proof.
  intros rule s [[A B C] K] E. apply notEnd in E. pose proof (at_next _ _ _ A E) as N.
  assert (RB : rest (read (base s)) = skipn (snd (DecodeRune (rest (base s)))) (rest (base s))) by (unfold read; destruct (invalid _); reflexivity).
  unfold readR, arrive. rewrite RB. destruct (invalid (skipn _ _)); (constructor; [constructor|]);
    cbn [pt far wants reports base addReport withPt withBase]; rewrite ?RB; auto.
  intros q J. apply in_app_iff in J as [J|[<-|[]]]; auto. right. cbn [rpos]. eauto.
Qed.
Lemma read_wants : forall rule s, wants (readR rule s) = wants s /\ inverted (readR rule s) = inverted s /\ far (readR rule s) = far s.
Proof. intros rule s. unfold readR, arrive. destruct (invalid _); auto. Qed.
Lemma keeping_lit : forall rule want s, keeping s -> keeping (snd (litLoopR rule want s)).
Proof.
  intros rule. induction want as [|c want IH]; intros s H; cbn [litLoopR]; [exact H|].
  destruct (PegModel.rune (base s) =? byte c) eqn:E; [|exact H]. apply IH, keeping_read; auto. eapply lit_notEnd; eauto.
Qed.
Lemma lit_wants : forall rule want s, let s' := snd (litLoopR rule want s) in wants s' = wants s /\ inverted s' = inverted s.
Proof.
  intros rule. induction want as [|c want IH]; intros s; cbn [litLoopR]; [auto|].
  destruct (PegModel.rune (base s) =? byte c) eqn:E; [|auto]. specialize (IH (readR rule s)). cbv zeta in *. destruct (read_wants rule s) as (A & B & _). destruct IH. split; congruence.
Qed.
Lemma keeping_failAt : forall b s0 w s, keeping s0 -> keeping s ->
  keeping (failAt b (pt s0) w s) /\ inverted (failAt b (pt s0) w s) = inverted s /\
  (wants s <> [] -> wants (failAt b (pt s0) w s) <> []) /\ (b = inverted s -> wants (failAt b (pt s0) w s) <> []).
Proof.
  intros b s0 w s K0 K. apply fail_keeps; auto. destruct K0 as [[A0 B0 C0] _], K as [[A B C] _].
  unfold failAt. destruct (Bool.eqb b (inverted s)); [|constructor; auto].
  destruct (_ <? _); [constructor; auto|]. destruct (_ <? _); constructor; auto. right. cbn [far]. eauto.
Qed.

Lemma later_any : forall rule f s ok a s', keeping s -> anyR rule f s = (ok, a, f, s') -> later ok s s'.
Proof.
  intros rule f s ok a s' K H. unfold anyR in H. destruct (atEnd (base s)) eqn:E; inversion H; subst.
  - destruct (keeping_failAt false s "." s K K) as (A & B & C & D). split; auto.
  - pose proof (keeping_read rule s K E) as KR. destruct (keeping_failAt true s "." _ K KR) as (A & B & C & D). destruct (read_wants rule s) as (E1 & E2 & _).
    rewrite E1, E2 in *. split; auto.
Qed.
Lemma later_class : forall rule cs rs f s ok a s', keeping s -> classR rule cs rs f s = (ok, a, f, s') -> later ok s s'.
Proof.
  intros rule cs rs f s ok a s' K H. unfold classR in H. destruct (keeping_failAt false s (classVal cs rs) s K K) as (A0 & B0 & C0 & D0).
  destruct (atEnd (base s)) eqn:E; [inversion H; subst; split; auto|]. destruct (inClass _ _ _); inversion H; subst; [|split; auto].
  pose proof (keeping_read rule s K E) as KR. destruct (keeping_failAt true s (classVal cs rs) _ K KR) as (A & B & C & D). destruct (read_wants rule s) as (E1 & E2 & _).
  rewrite E1, E2 in *. split; auto.
Qed.
Lemma later_lit : forall rule val f s ok a s', keeping s -> litR rule val f s = (ok, a, f, s') -> later ok s s'.
Proof.
  intros rule val f s ok a s' K H. unfold litR in H. pose proof (keeping_lit rule (textOf val) s K) as KL. pose proof (lit_wants rule (textOf val) s) as (W1 & W2).
  destruct (litLoopR rule (textOf val) s) as [ok1 s1]. cbn [snd] in *. destruct ok1; inversion H; subst.
  - destruct (keeping_failAt true s (quote val) s1 K KL) as (A & B & C & D). rewrite W1, W2 in *. split; auto.
  - destruct (keeping_failAt false s (quote val) s1 K KL) as (A & B & C & D). rewrite W1, W2 in *. split; [apply keeping_restore; auto|]. auto.
Qed.
Lemma any_frame : forall rule f s, exists ok a s', anyR rule f s = (ok, a, f, s').
Proof. intros. unfold anyR. destruct (atEnd _); eauto. Qed.
Lemma class_frame : forall rule cs rs f s, exists ok a s', classR rule cs rs f s = (ok, a, f, s').
Proof. intros. unfold classR. destruct (atEnd _); eauto. destruct (inClass _ _ _); eauto. Qed.
Lemma lit_frame : forall rule val f s, exists ok a s', litR rule val f s = (ok, a, f, s').
Proof. intros. unfold litR. destruct (litLoopR _ _ _) as [[] ?]; eauto. Qed.

Lemma later_token : forall n rule e f s ok v f' s', token e = true -> keeping s -> exprR g n rule e f s = Ok (ok, v, f', s') -> later ok s s'.
Proof.
  intros n rule e f s ok v f' s' T K H. destruct n as [|n]; [discriminate|]. rewrite exprR_S in H; cbv zeta in H. apply keeping_tick in K.
  change (later ok (tick s) s'). destruct e; try discriminate T.
  - destruct (any_frame rule f (tick s)) as (ok1 & a & s1 & E). rewrite E in H. inversion H; subst. eapply later_any; eauto.
  - destruct (lit_frame rule val f (tick s)) as (ok1 & a & s1 & E). rewrite E in H. inversion H; subst. eapply later_lit; eauto.
  - cbn [token] in T. apply String.eqb_eq in T. subst name. change (alookup "EOL" g) with (Some (ELit newline)) in H. cbv iota in H.
    apply bind_ok in H as ([[[ok1 v1] f1] s1] & H1 & H). inversion H; subst. clear H. destruct n as [|n]; [discriminate|].
    rewrite exprR_S in H1; cbv zeta in H1. apply keeping_tick in K.
    destruct (lit_frame "EOL" newline [] (tick (tick s))) as (ok2 & a & s2 & E). rewrite E in H1. inversion H1; subst. change (later ok (tick (tick s)) s'). eapply later_lit; eauto.
Qed.

Lemma later_trans : forall b s s1 s2 ok, later b s s1 -> later ok s1 s2 -> later ok s s2.
Proof. intros b s s1 s2 ok (A & B & C & D) (A1 & B1 & C1 & D1). split; auto. split; [congruence|]. split; auto. intros E. apply D1. congruence. Qed.
Lemma later_eq : forall ok s s1 s2, later ok s s1 -> keeping s2 -> inverted s2 = inverted s1 -> wants s2 = wants s1 -> later ok s s2.
Proof. intros ok s s1 s2 (A & B & C & D) K I W. split; auto. rewrite I, W. auto. Qed.
Lemma later_wants : forall ok ok' s s', later ok s s' -> (ok' = inverted s -> wants s' <> []) -> later ok' s s'.
Proof. intros ok ok' s s' (A & B & C & D) H. split; auto. Qed.

Lemma laters : forall n,
  (forall rule e f s ok v f' s', plain e = true -> keeping s -> inverted s = false -> exprR g n rule e f s = Ok (ok, v, f', s') -> later ok s s') /\
  (forall rule es f s ok v f' s', forallb plain es = true -> keeping s -> inverted s = false -> altsR g n rule es f s = Ok (ok, v, f', s') ->
     keeping s' /\ inverted s' = false /\ (wants s <> [] -> wants s' <> []) /\ (ok = false -> es <> [] -> wants s' <> [])) /\
  (forall rule es f s ok v f' s', forallb plain es = true -> keeping s -> inverted s = false -> seqR g n rule es f s = Ok (ok, v, f', s') -> later ok s s') /\
  (forall rule e s ok v s', plain e = true -> keeping s -> inverted s = false -> loopR g n rule e s = Ok (ok, v, s') ->
     ok = true /\ later false s s').
Proof.
  induction n as [|n (IE & IA & IS & IL)]; [refine (conj _ (conj _ (conj _ _))); intros; discriminate|]. refine (conj _ (conj _ (conj _ _))).
  - intros rule e f s ok v f' s' P K I H. destruct (token e) eqn:TK; [eapply later_token; eauto|]. rewrite exprR_S in H; cbv zeta in H.
    assert (KT : keeping (tick s)) by (apply keeping_tick; auto). change (later ok (tick s) s'). assert (IT : inverted (tick s) = false) by exact I.
    clear K I. set (s0 := tick s) in *. clearbody s0. clear s. destruct e; cbn [plain] in P.
    + apply bind_ok in H as ([[[ok1 v1] f1] s1] & H1 & H). apply IE in H1; auto. destruct ok1.
      * apply bind_ok in H as ([v' er] & H2 & H). inversion H; subst. clear H.
        eapply later_eq; [exact H1|apply keeping_report; auto; apply H1|destruct er; reflexivity|destruct er; reflexivity].
      * inversion H; subst. exact H1.
    + discriminate TK.
    + destruct (class_frame rule chars ranges f s0) as (ok1 & a & s1 & E). rewrite E in H. inversion H; subst. eapply later_class; eauto.
    + apply andb_prop in P as [P1 P2]. apply IA in H; auto. destruct H as (A & B & C & D). split; auto. split; [congruence|]. split; auto.
      rewrite IT. intros ->. apply D; auto. intros N; subst; discriminate P1.
    + apply bind_ok in H as ([[[ok1 v1] f1] s1] & H1 & H). apply IE in H1; auto. inversion H; subst; auto.
    + discriminate TK.
    + apply bind_ok in H as ([[[ok1 v1] f1] s1] & H1 & H). inversion H; subst. clear H.
      eapply later_token in H1; [|exact P|apply keeping_inv; exact KT]. destruct H1 as (A & B & C & D). cbn [inverted withInverted wants] in *. rewrite IT in *. cbn [negb] in *.
      split; [apply keeping_restore; auto; apply keeping_state, keeping_inv; auto|]. cbn [restoreR restoreStateR withPt withBase withInverted inverted wants].
      rewrite B. split; auto. split; auto. intros N. apply D. destruct ok1; [reflexivity|rewrite IT in N; discriminate N].
    + apply bind_ok in H as ([[ok1 vs] s1] & H1 & H). apply IL in H1 as [-> H1]; auto. destruct vs; inversion H; subst; auto.
      eapply later_wants; [exact H1|]. rewrite IT. intros X; discriminate X.
    + destruct (alookup name g) as [e|] eqn:L.
      * apply bind_ok in H as ([[[ok1 v1] f1] s1] & H1 & H). apply IE in H1; [|eapply rule_plain; eauto|auto|auto]. inversion H; subst; auto.
      * exfalso. eapply rule_exists; eauto.
    + apply bind_ok in H as ([[[ok1 vs] f1] s1] & H1 & H). apply IS in H1; auto. destruct ok1; inversion H; subst; auto.
      eapply later_eq; [exact H1|apply keeping_restore; auto; apply keeping_state, H1|reflexivity|reflexivity].
    + inversion H; subst. destruct KT as [[A B C] K]. split; [constructor; [constructor|]; auto|]. split; [reflexivity|]. split; auto. rewrite IT. intros X; discriminate X.
    + apply bind_ok in H as ([[ok1 vs] s1] & H1 & H). apply IL in H1 as [-> H1]; auto. inversion H; subst.
      eapply later_wants; [exact H1|]. rewrite IT. intros X; discriminate X.
    + apply bind_ok in H as ([[[ok1 v1] f1] s1] & H1 & H). apply IE in H1; auto. inversion H; subst.
      eapply later_wants; [exact H1|]. rewrite IT. intros X; discriminate X.
  - intros rule [|e es] f s ok v f' s' P K I H; rewrite altsR_S in H; [inversion H; subst; split; auto; split; auto; split; auto; congruence|].
    cbn [forallb] in P. apply andb_prop in P as [P1 P2].
    apply bind_ok in H as ([[[ok1 v1] f1] s1] & H1 & H). apply IE in H1; auto. destruct H1 as (A & B & C & D). destruct ok1.
    + inversion H; subst. split; auto. split; [congruence|]. split; auto. intros X; discriminate X.
    + apply IA in H; [|auto|apply keeping_state; auto|cbn; congruence]. destruct H as (A1 & B1 & C1 & D1). cbn [restoreStateR withBase wants] in C1.
      split; auto.
  - intros rule [|e es] f s ok v f' s' P K I H; rewrite seqR_S in H; [inversion H; subst; split; auto; split; auto; split; auto; congruence|].
    cbn [forallb] in P. apply andb_prop in P as [P1 P2].
    apply bind_ok in H as ([[[ok1 v1] f1] s1] & H1 & H). apply IE in H1; auto. destruct ok1; [|inversion H; subst; auto].
    apply bind_ok in H as ([[[ok' vs] f2] s2] & H2 & H). apply IS in H2; [|auto|apply H1|destruct H1 as (_ & B & _); congruence]. inversion H; subst.
    eapply later_trans; eauto.
  - intros rule e s ok v s' P K I H; rewrite loopR_S in H.
    apply bind_ok in H as ([[[ok1 v1] f1] s1] & H1 & H). apply IE in H1; auto. destruct ok1; [|inversion H; subst; auto].
    apply bind_ok in H as ([[ok' vs] s2] & H2 & H). apply IL in H2 as [-> H2]; [|auto|apply H1|destruct H1 as (_ & B & _); congruence]. inversion H; subst.
    split; auto. eapply later_trans; eauto.
Qed.

Lemma keeping_start : keeping (startR data).
Proof. constructor; [apply placed_start|]. intros _. unfold startR, arrive. destruct (invalid _); reflexivity. Qed.
Lemma fail_wants : forall n v f s, exprR g n "" (ERule "File") [] (startR data) = Ok (false, v, f, s) -> wants s <> [].
Proof.
  intros n v f s H. apply (proj1 (laters n)) in H; [|reflexivity|apply keeping_start|unfold startR, arrive; destruct (invalid _); reflexivity].
  apply H. unfold startR, arrive; destruct (invalid _); reflexivity.
Qed.
End Wants.

(* ---------- in the user's terms ---------- *)

Definition wordChar (c : Z) : Prop := 48 <= c <= 57 \/ 65 <= c <= 70 \/ 97 <= c <= 102 \/ c = 120.
Lemma class_word : forall class ds, (forall c, class c = true -> wordChar c) -> forallb class ds = true -> Forall wordChar ds.
Proof. intros class ds H F. apply Forall_forall. intros c J. rewrite forallb_forall in F. auto. Qed.
Lemma d10_word : forall c, digit10 c = true -> wordChar c. Proof. unfold digit10, between, wordChar. intros. lia. Qed.
Lemma d8_word : forall c, digit8 c = true -> wordChar c. Proof. unfold digit8, between, wordChar. intros. lia. Qed.
Lemma d16_word : forall c, digit16 c = true -> wordChar c. Proof. unfold digit16, digit10, between, wordChar. intros. lia. Qed.
Lemma bad_word : forall t c, badNumber t c -> Forall wordChar t.
Proof.
  intros t c H. assert (W48 : wordChar 48) by (unfold wordChar; lia). assert (WX : wordChar 120) by (unfold wordChar; lia). destruct H.
  - constructor; auto. constructor; [unfold wordChar; lia|]. eapply class_word; [apply d10_word|auto].
  - constructor; auto. constructor; auto. eapply class_word; [apply d16_word|auto].
  - constructor; auto. eapply class_word; [apply d8_word|auto].
  - eapply class_word; [apply d10_word|auto].
Qed.
Lemma word_utf8 : forall t, Forall wordChar t -> utf8 t = fromCodes t.
Proof.
  induction 1 as [|c t H F IH]; [reflexivity|]. rewrite utf8_cons, IH. unfold utf8_1.
  replace (c <? 128) with true by (unfold wordChar in H; lia). reflexivity.
Qed.
Lemma word_quote : forall t, Forall wordChar t -> quote (stringOf (fromCodes t)) = ("""" ++ named t ++ """")%string.
Proof.
  intros t F. unfold quote. change dquote with """".
  assert (E : String.concat "" (map quoteChar (list_ascii_of_string (stringOf (fromCodes t)))) = named t).
  { unfold stringOf. rewrite list_ascii_of_string_of_list_ascii. induction F as [|c t H F IH]; [reflexivity|].
    assert (Q : quoteChar (octet c) = String (octet c) "").
    { unfold quoteChar. rewrite byte_octet' by (unfold wordChar in H; lia).
      replace (c =? 10) with false by (unfold wordChar in H; lia). replace ((c =? 34) || (c =? 92)) with false by (unfold wordChar in H; lia). reflexivity. }
    change (map quoteChar (fromCodes (c :: t))) with (quoteChar (octet c) :: map quoteChar (fromCodes t)). rewrite Q.
    change (named (c :: t)) with (String (octet c) (named t)). rewrite <- IH.
    destruct (map quoteChar (fromCodes t)); reflexivity. }
  rewrite E. reflexivity.
Qed.

Lemma string_assoc : forall a b c : string, ((a ++ b) ++ c)%string = (a ++ (b ++ c))%string.
Proof. induction a; intros; cbn [append]; [reflexivity|]. rewrite IHa. reflexivity. Qed.
Lemma kind_says : forall data r, kind data r ->
  (rrule r = "IntLiteral" /\ saysNumber data (offset (rpos r)) (rtext r)) \/ saysEncoding data (offset (rpos r)) (rtext r).
Proof.
  intros data r [(R & a & t & b & x & E & O & (c & B & X) & T)|(T & a & b & E & O & V)].
  - left. split; auto. exists a, t, b, c. pose proof (bad_word _ _ B) as W. rewrite (word_utf8 t W). split; auto. split; auto. split; auto.
    rewrite T. destruct x; [subst c|subst c|destruct X]; unfold errText; rewrite (word_quote t W); rewrite ?string_assoc; reflexivity.
  - right. split; auto. exists a, b. split; auto. split; auto. split.
    + intros ->. discriminate V.
    + intros c b' Hc ->. destruct (decode_utf8 c b' Hc) as [_ V']. congruence.
Qed.

Lemma expected_nonempty : forall order ws, (forall l, Permutation.Permutation l (order l)) -> ws <> [] -> expectedList order ws <> [].
Proof.
  intros order ws P N. unfold expectedList. destruct ws as [|w ws]; [congruence|].
  assert (J : In w (nodup string_dec (w :: ws))) by (apply nodup_In; left; reflexivity).
  set (keys := nodup string_dec (w :: ws)) in *. clearbody keys. destruct (existsb (String.eqb "!.") keys) eqn:E.
  - intros X. apply app_eq_nil in X as [_ X]. discriminate X.
  - rewrite app_nil_r. assert (JF : In w (filter (fun k => negb (String.eqb "!." k)) keys)).
    { apply filter_In. split; auto. destruct (String.eqb "!." w) eqn:Q; auto. exfalso.
      assert (X : existsb (String.eqb "!.") keys = true) by (apply existsb_exists; exists w; auto). congruence. }
    assert (JO : In w (order (filter (fun k => negb (String.eqb "!." k)) keys))) by (eapply Permutation.Permutation_in; [apply P|exact JF]).
    destruct (order _) as [|y l]; [destruct JO|]. cbn [sortStrings fold_right]. intros X.
    assert (L : forall x l, insertString x l <> []) by (intros x [|z l0]; cbn [insertString]; [discriminate|destruct (leString x z); discriminate]).
    eapply L; exact X.
Qed.
Lemma join_says : forall l, l <> [] -> saysExpected l ("no match found, expected: " ++ listJoin l ", " "or").
Proof.
  intros l N. destruct (exists_last N) as (front & last & ->). exists front, last. split; auto. f_equal.
  unfold listJoin. rewrite rev_app_distr. cbn [rev app]. destruct (rev front) as [|y ys] eqn:E.
  - assert (front = []) by (rewrite <- (rev_involutive front), E; reflexivity). subst. reflexivity.
  - rewrite <- E, rev_involutive. destruct front; [discriminate E|]. reflexivity.
Qed.

Lemma kinds : forall order fn data l, (forall l, Permutation.Permutation l (order l)) -> answers order fn data (RErrors l) ->
  (forall r, In r l -> rexpected r = [] /\
     ((rrule r = "IntLiteral" /\ saysNumber data (offset (rpos r)) (rtext r)) \/ saysEncoding data (offset (rpos r)) (rtext r))) \/
  (exists r, l = [r] /\ rexpected r <> [] /\ rrule r = "" /\ saysExpected (rexpected r) (rtext r)).
Proof.
  intros order fn data l P A. destruct (answer order fn data) as (ok & v & s & n & H & _ & A' & _).
  pose proof (answers_fun _ _ _ _ _ A A') as E. clear A A'. specialize (H n (le_n _)). pose proof (f_kinds _ _ (fine_file _ _ _ _ _ _ H)) as K.
  assert (KS : forall l0, dedupe fn [] (reports s) = l0 -> forall r, In r l0 -> rexpected r = [] /\
     ((rrule r = "IntLiteral" /\ saysNumber data (offset (rpos r)) (rtext r)) \/ saysEncoding data (offset (rpos r)) (rtext r))).
  { intros l0 <- r J. apply dedupe_incl in J. destruct (K _ J) as [K1 K2]. split; auto. apply kind_says; auto. }
  destruct ok.
  - left. destruct (dedupe fn [] (reports s)) as [|r0 l0]; [discriminate|]. inversion E; subst. apply KS. reflexivity.
  - destruct (reports s) as [|r1 l1] eqn:ER.
    + right. cbn [dedupe existsb] in E. inversion E; subst l. eexists. split; [reflexivity|]. unfold noMatch. cbn [rexpected rrule rtext].
      assert (W : expectedList order (wants s) <> []) by (apply expected_nonempty; auto; eapply fail_wants; exact H).
      split; auto. split; auto. apply join_says; auto.
    + left. rewrite <- ER in *. destruct (dedupe fn [] (reports s)) as [|r0 l0]; [discriminate|]. inversion E; subst. apply KS. reflexivity.
Qed.
