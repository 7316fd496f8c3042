(** How the braces of the text that an expression takes balance. *)
From Coq Require Import ZArith String Ascii List Bool Lia ZifyBool ZifyNat.
From Verif Require Import Base Ast PegModel PegGrammar PegEngine PegRunes PegReport PegReportProofs PegRestore PegSpend NestSpec.
Import ListNotations.
Open Scope string_scope.
Open Scope list_scope.
Open Scope Z_scope.

(* ---------- texts ---------- *)

Definition val (c : ascii) : Z := if byte c =? 123 then 1 else if byte c =? 125 then -1 else 0.
Fixpoint excess (w : text) : Z := match w with [] => 0 | c :: w => val c + excess w end.
Fixpoint top (x : text) : Z := match x with [] => 0 | c :: x => Z.max 0 (val c + top x) end.
Lemma top_pos : forall x, 0 <= top x. Proof. destruct x; cbn [top]; lia. Qed.
Lemma top_app : forall w x, top x + excess w <= top (w ++ x).
Proof. induction w as [|c w IH]; intros x; cbn [app excess top]; [lia|]. specialize (IH x). lia. Qed.
Lemma excess_app : forall a b, excess (a ++ b) = excess a + excess b.
Proof. induction a; intros b; cbn [app excess]; [lia|]. rewrite IHa. lia. Qed.
Lemma top_some : forall x, exists a b, x = a ++ b /\ excess a = top x.
Proof.
  induction x as [|c x (a & b & E & T)]; [exists [], []; auto|]. cbn [top]. destruct (Z.max_spec 0 (val c + top x)) as [[L ->]|[L ->]].
  - exists (c :: a), b. split; [rewrite E; reflexivity|]. cbn [excess]. lia.
  - exists [], (c :: x). auto.
Qed.
Lemma excess_zero : forall w, braceless w -> excess w = 0.
Proof.
  induction w as [|c w IH]; intros B; [reflexivity|]. cbn [excess]. rewrite IH; [|intros d J; apply B; right; exact J].
  unfold val. pose proof (B c (or_introl eq_refl)) as [A D].
  destruct (byte c =? 123) eqn:E1; [exfalso; apply A; lia|]. destruct (byte c =? 125) eqn:E2; [exfalso; apply D; lia|]. lia.
Qed.
Lemma has_suffix : forall a w x, has w x -> has w (a ++ x).
Proof. intros a w x (u & z & ->). exists (a ++ u), z. rewrite app_assoc. reflexivity. Qed.
Lemma plain_suffix : forall a x, plain (a ++ x) -> plain x.
Proof. intros a x P w H C. apply (P w); [apply has_suffix; exact H|exact C]. Qed.

(** The first rune is one byte below 128, or all its bytes are above. *)
Lemma decode_split : forall x, x <> [] -> exists w, x = w ++ skipn (snd (DecodeRune x)) x /\
  ((exists c, w = [c] /\ byte c = fst (DecodeRune x) /\ byte c < 128) \/ (128 <= fst (DecodeRune x) /\ w <> [] /\ forall c, In c w -> 128 <= byte c)).
Proof.
  intros [|c0 x] N; [congruence|]. exists (firstn (snd (DecodeRune (c0 :: x))) (c0 :: x)). split; [symmetry; apply firstn_skipn|].
  unfold DecodeRune, RuneError, cont, inR. cbv zeta. pose proof (byte_range c0).
  destruct (byte c0 <? 128) eqn:B; [left; exists c0; cbn; intuition lia|right].
  repeat match goal with
  | |- context [match ?x with [] => _ | _ => _ end] => destruct x
  | |- context [if ?b then (_, _) else _] => destruct b eqn:?
  | |- context [if ?b then _ else (_, _)] => destruct b eqn:?
  end; cbn [fst snd firstn]; (split; [|split; [discriminate|]]); try lia;
  try (intros d [<-|[]]; lia);
  try (intros d J; cbn [In] in J; repeat destruct J as [<-|J]; try contradiction; lia).
  all: try (destruct (byte c0 =? 224) eqn:?; destruct (byte c0 =? 237) eqn:?; destruct (byte c0 =? 240) eqn:?; destruct (byte c0 =? 244) eqn:?; try lia;
    intros d J; cbn [In] in J; repeat destruct J as [<-|J]; try contradiction; lia).
Qed.

Definition cut (x x' : text) : Prop := exists w, x = w ++ x'.
Lemma cut_refl : forall x, cut x x. Proof. exists []. reflexivity. Qed.
Lemma cut_trans : forall x y z, cut x y -> cut y z -> cut x z.
Proof. intros x y z [a ->] [b ->]. exists (a ++ b). rewrite app_assoc. reflexivity. Qed.
Lemma cut_read : forall s, cut (rest s) (rest (read s)).
Proof. intros s. rewrite read_rest. exists (firstn (snd (DecodeRune (rest s))) (rest s)). symmetry. apply firstn_skipn. Qed.

(** A lower bound for opening minus closing braces; [None] if nothing is known. *)
Definition bal := option Z.
Definition balAdd (a b : bal) : bal := match a, b with Some x, Some y => Some (x + y) | _, _ => None end.
Definition balMin (a b : bal) : bal := match a, b with Some x, Some y => Some (Z.min x y) | _, _ => None end.
Definition balLoop (a : bal) : bal := match a with Some x => if 0 <=? x then Some 0 else None | None => None end.
Definition takes (b : bal) (x x' : text) : Prop :=
  cut x x' /\ (plain x -> match b with Some z => top x' + z <= top x | None => True end).
Definition balLe (a b : bal) : bool := match a, b with None, _ => true | Some x, Some y => x <=? y | Some _, None => false end.
Lemma takes_le : forall a b x x', balLe a b = true -> takes b x x' -> takes a x x'.
Proof. intros [a|] [b|] x x' L [C T]; cbn in L; try discriminate; split; auto. intros P. specialize (T P). lia. Qed.
Lemma takes_seq : forall a b x y z, takes a x y -> takes b y z -> takes (balAdd a b) x z.
Proof.
  intros a b x y z [[u ->] T] [[v ->] S]. split; [exists (u ++ v); rewrite app_assoc; reflexivity|]. intros P.
  specialize (T P). specialize (S (plain_suffix _ _ P)). destruct a, b; cbn; auto. lia.
Qed.
Lemma takes_min_l : forall a b x x', takes a x x' -> takes (balMin a b) x x'.
Proof. intros a b x x'. apply takes_le. destruct a, b; cbn; auto. lia. Qed.
Lemma takes_min_r : forall a b x x', takes b x x' -> takes (balMin a b) x x'.
Proof. intros a b x x'. apply takes_le. destruct a, b; cbn; auto. lia. Qed.
Lemma takes_none : forall x, takes (Some 0) x x. Proof. intros x. split; [apply cut_refl|]. intros _. lia. Qed.
Lemma takes_word : forall w x, takes (Some (excess w)) (w ++ x) x.
Proof. intros w x. split; [exists w; reflexivity|]. intros _. apply top_app. Qed.

Definition asciiClass (cs : list Z) (rs : list (Z * Z)) : bool :=
  forallb (fun c => (c <? 128) && negb (c =? 123) && negb (c =? 125)) cs &&
  forallb (fun r => (snd r <? 123)) rs.
Definition asciiWord (w : text) : bool := forallb (fun c => byte c <? 128) w.

Section Balance.
  Variable rules : grammar.
  Variable table : string -> bal.
  Fixpoint balance (e : expr) : bal :=
    match e with
    | EAct _ e | ELabel _ e => balance e
    | EAny => None
    | EClass cs rs => if asciiClass cs rs then Some 0 else None
    | ELit w => if asciiWord (textOf w) then Some (excess (textOf w)) else None
    | ENot _ | EState _ => Some 0
    | EOpt e => balMin (Some 0) (balance e)
    | EStar e => balLoop (balance e)
    | EPlus e => balAdd (balance e) (balLoop (balance e))
    | EChoice es => (fix go es := match es with [] => Some 1000 | e :: es => balMin (balance e) (go es) end) es
    | ESeq es => (fix go es := match es with [] => Some 0 | e :: es => balAdd (balance e) (go es) end) es
    | ERule name => table name
    end.
  Fixpoint balanceAlts (es : list expr) : bal := match es with [] => Some 1000 | e :: es => balMin (balance e) (balanceAlts es) end.
  Fixpoint balanceSeq (es : list expr) : bal := match es with [] => Some 0 | e :: es => balAdd (balance e) (balanceSeq es) end.
  Hypothesis table_balance : forall name e, alookup name rules = Some e -> balLe (table name) (balance e) = true \/
    forall n f s v f' s', parseExpr rules n e f s = Ok (true, v, f', s') -> takes (table name) (rest s) (rest s').

  Lemma read_class : forall cs rs s, asciiClass cs rs = true -> inClass cs rs (rune s) = true -> takes (Some 0) (rest s) (rest (read s)).
  Proof.
    intros cs rs s A I. rewrite read_rest. unfold rune in I.
    assert (R : 0 <= fst (DecodeRune (rest s)) < 128 /\ fst (DecodeRune (rest s)) <> 123 /\ fst (DecodeRune (rest s)) <> 125).
    { split; [split; [apply decode_pos|]|]; unfold asciiClass, inClass in *; apply andb_prop in A as [A B]; rewrite forallb_forall in A, B;
      apply orb_prop in I as [I|I]; apply existsb_exists in I as (z & J & E).
      all: try (specialize (A _ J); lia). all: specialize (B _ J); destruct z; cbn [fst snd] in *; lia. }
    destruct (rest s) as [|c0 t] eqn:RS; [vm_compute in R; intuition congruence|]. rewrite <- RS in *. clear RS.
    destruct (decode_split (rest s)) as (w & E & [(c & -> & C & _)|(G & _)]); [intros Q; rewrite Q in R; vm_compute in R; intuition congruence| |lia].
    replace 0 with (excess [c]); [|cbn; unfold val; destruct (byte c =? 123) eqn:?; [lia|]; destruct (byte c =? 125) eqn:?; [lia|]; reflexivity].
    rewrite E at 1. apply takes_word.
  Qed.
  Lemma lit_word : forall w s, asciiWord w = true -> fst (litLoop w s) = true -> rest s = w ++ rest (snd (litLoop w s)).
  Proof.
    induction w as [|c w IH]; intros s A T; [reflexivity|]. cbn [litLoop] in *. cbn [asciiWord forallb] in A. apply andb_prop in A as [A B].
    destruct (rune s =? byte c) eqn:R; [|discriminate]. specialize (IH (read s) B T). rewrite read_rest in IH. unfold rune in R.
    destruct (decode_split (rest s)) as (u & E & [(c' & -> & C & _)|(G & _)]).
    - intros Q. rewrite Q in R. vm_compute fst in R. lia.
    - assert (Q : byte c' = byte c) by lia.
      assert (c' = c) as -> by (rewrite <- (ascii_N_embedding c'), <- (ascii_N_embedding c); unfold byte in Q; f_equal; lia).
      rewrite E at 1. rewrite IH. reflexivity.
    - lia.
  Qed.
  Lemma lit_cut : forall w s, cut (rest s) (rest (snd (litLoop w s))).
  Proof.
    induction w as [|c w IH]; intros s; cbn [litLoop]; [apply cut_refl|]. destruct (rune s =? byte c); [|apply cut_refl].
    eapply cut_trans; [apply cut_read|apply IH].
  Qed.
  Definition balX (n : nat) : Prop := forall e f s v f' s', parseExpr rules n e f s = Ok (true, v, f', s') -> takes (balance e) (rest s) (rest s').
  Definition balA (n : nat) : Prop := forall es f s v f' s', parseAlts rules n es f s = Ok (true, v, f', s') -> takes (balanceAlts es) (rest s) (rest s').
  Definition balS (n : nat) : Prop := forall es f s v f' s', parseSeq rules n es f s = Ok (true, v, f', s') -> takes (balanceSeq es) (rest s) (rest s').
  Definition balL (n : nat) : Prop := forall e s ok vs s', parseLoop rules n e s = Ok (ok, vs, s') ->
    takes (balLoop (balance e)) (rest s) (rest s') /\ (vs <> [] -> takes (balAdd (balance e) (balLoop (balance e))) (rest s) (rest s')).
  Lemma stays : forall n e f s v f' s', parseExpr rules n e f s = Ok (false, v, f', s') -> rest s' = rest s.
  Proof. intros n e f s v f' s' H. exact (proj1 (proj2 (proj1 (keeps_all rules n) _ _ _ _ _ _ _ H) eq_refl)). Qed.
  Lemma takes_loop : forall a x y, takes a x y -> forall z, takes (balLoop a) y z -> takes (balLoop a) x z.
  Proof.
    intros a x y T z U. pose proof (takes_seq _ _ _ _ _ T U) as W. eapply takes_le; [|exact W].
    destruct a as [a|]; cbn [balLoop]; auto. destruct (0 <=? a) eqn:E; cbn; auto. lia.
  Qed.
  Lemma takes_stop : forall a x, takes (balLoop a) x x.
  Proof. intros a x. eapply takes_le; [|apply takes_none]. destruct a as [a|]; cbn; auto. destruct (0 <=? a); auto. Qed.

  Lemma balance_all : forall n, balX n /\ balA n /\ balS n /\ balL n.
  Proof.
    induction n as [|n (IE & IA & IS & IL)]; [split; [|split; [|split]]; intros ? **; discriminate|].
    split; [|split; [|split]].
    - intros e f s v f' s' H. rewrite expr_S in H.
      destruct e as [run e| |cs rs|alts|l e|w|e|e|name|es|run|e|e]; cbn [balance].
      + apply bind_ok in H as ([[[ok1 v1] f1] s1] & E & H). destruct ok1; [|discriminate].
        cbv zeta in H. apply bind_ok in H as ([v2 [er|]] & _ & H); injection H as _ _ <-; exact (IE _ _ _ _ _ _ E).
      + injection H as H. unfold parseAny in H. destruct (atEnd s); [discriminate H|]. injection H as _ _ <-. split; [apply cut_read|auto].
      + injection H as H. unfold parseClass in H. destruct (atEnd s) eqn:AE; [discriminate|destruct (inClass _ _ _) eqn:I; [|discriminate]]. injection H as _ _ <-.
        destruct (asciiClass cs rs) eqn:A; [apply (read_class cs rs); auto|]. split; [apply cut_read|auto].
      + exact (IA _ _ _ _ _ _ H).
      + apply bind_ok in H as ([[[ok1 v1] f1] s1] & E & H). injection H as -> _ _ <-. exact (IE _ _ _ _ _ _ E).
      + injection H as H. unfold parseLit in H. pose proof (lit_word (textOf w) s) as Q. pose proof (lit_cut (textOf w) s) as C.
        destruct (litLoop (textOf w) s) as [[] s1]; [|discriminate]. injection H as _ _ <-; cbn [fst snd] in Q, C.
        destruct (asciiWord (textOf w)); [|split; auto]. rewrite (Q eq_refl eq_refl). apply takes_word.
      + apply bind_ok in H as ([[[ok1 v1] f1] s1] & E & H). injection H as _ _ _ <-. apply takes_none.
      + apply bind_ok in H as ([[ok1 vs] s1] & E & H). destruct (IL _ _ _ _ _ E) as [A B].
        destruct vs; [discriminate H|]. injection H as _ _ _ <-. apply B. discriminate.
      + destruct (alookup name rules) as [e|] eqn:A; [|discriminate].
        apply bind_ok in H as ([[[ok1 v1] f1] s1] & E & H). injection H as -> _ _ <-.
        destruct (table_balance _ _ A) as [L|S]; [eapply takes_le; [exact L|exact (IE _ _ _ _ _ _ E)]|exact (S _ _ _ _ _ _ E)].
      + apply bind_ok in H as ([[[ok1 v1] f1] s1] & E & H). destruct ok1; [|discriminate]. injection H as _ _ <-. exact (IS _ _ _ _ _ _ E).
      + injection H as _ _ <-. apply takes_none.
      + apply bind_ok in H as ([[ok1 vs] s1] & E & H). injection H as _ _ <-. exact (proj1 (IL _ _ _ _ _ E)).
      + apply bind_ok in H as ([[[ok1 v1] f1] s1] & E & H). injection H as _ _ <-. destruct ok1.
        * apply takes_min_r. exact (IE _ _ _ _ _ _ E).
        * rewrite (stays _ _ _ _ _ _ _ E). apply takes_min_l. apply takes_none.
    - intros es f s v f' s' H. rewrite alts_S in H. destruct es as [|e es]; [discriminate|].
      apply bind_ok in H as ([[[ok1 v1] f1] s1] & E & H). cbn [balanceAlts]. destruct ok1.
      + injection H as _ _ <-. apply takes_min_l. exact (IE _ _ _ _ _ _ E).
      + apply takes_min_r. pose proof (IA _ _ _ _ _ _ H) as T. cbn [restoreState rest] in T. rewrite (stays _ _ _ _ _ _ _ E) in T. exact T.
    - intros es f s v f' s' H. rewrite seq_S in H. destruct es as [|e es].
      + injection H as _ _ <-. apply takes_none.
      + apply bind_ok in H as ([[[ok1 v1] f1] s1] & E & H). cbn [balanceSeq]. destruct ok1; [|discriminate].
        apply bind_ok in H as ([[[ok2 v2] f2] s2] & E2 & H). injection H as -> _ _ <-.
        eapply takes_seq; [exact (IE _ _ _ _ _ _ E)|exact (IS _ _ _ _ _ _ E2)].
    - intros e s ok vs s' H. rewrite loop_S in H. apply bind_ok in H as ([[[ok1 v1] f1] s1] & E & H).
      destruct ok1.
      + apply bind_ok in H as ([[ok2 v2] s2] & E2 & H). injection H as _ <- <-. destruct (IL _ _ _ _ _ E2) as [P _].
        split; [|intros _]; [eapply takes_loop; [exact (IE _ _ _ _ _ _ E)|exact P]|eapply takes_seq; [exact (IE _ _ _ _ _ _ E)|exact P]].
      + injection H as _ <- <-. rewrite (stays _ _ _ _ _ _ _ E). split; [apply takes_stop|]. intros N. destruct (N eq_refl).
  Qed.
  Lemma balance_sound : forall n rule e f s v f' s', exprR rules n rule e f s = Ok (true, v, f', s') ->
    takes (balance e) (rest (base s)) (rest (base s')).
  Proof.
    intros n rule e f s v f' s' E. pose proof (expr_erases rules n rule e f s) as R. rewrite E in R. cbn in R. symmetry in R.
    exact (proj1 (balance_all n) _ _ _ _ _ _ R).
  Qed.
End Balance.

(* ---------- comments ---------- *)

Lemma lit_starts : forall w z s, asciiWord w = true -> rest s = w ++ z -> fst (litLoop w s) = true.
Proof.
  induction w as [|c w IH]; intros z s A R; [reflexivity|]. cbn [litLoop]. cbn [asciiWord forallb] in A. apply andb_prop in A as [A B].
  assert (D : DecodeRune (rest s) = (byte c, 1%nat)) by (rewrite R; cbn [app DecodeRune]; rewrite A; reflexivity).
  unfold rune. rewrite D. cbn [fst]. rewrite Z.eqb_refl. apply (IH z); [exact B|]. rewrite read_rest, D, R. reflexivity.
Qed.
Definition until (stop : expr) : expr := ESeq [ENot stop; ERule "SourceChar"].
Lemma until_text : forall c w stop, byte c < 128 ->
  (forall n f s ok v f' s' z, parseExpr g n stop f s = Ok (ok, v, f', s') -> rest s = (c :: w) ++ z -> ok = true) ->
  forall n s ok vs s', parseLoop g n (until stop) s = Ok (ok, vs, s') ->
  exists v, rest s = v ++ rest s' /\ forall a b z, v = a ++ b -> b <> [] -> b ++ rest s' = (c :: w) ++ z -> False.
Proof.
  intros c w stop C ST. induction n as [|n IH]; intros s ok vs s' H; [discriminate|]. rewrite loop_S in H.
  apply bind_ok in H as ([[[ok1 v1] f1] s1] & E & H). destruct ok1.
  - apply bind_ok in H as ([[ok2 v2] s2] & E2 & H). injection H as _ _ <-. destruct (IH _ _ _ _ E2) as (v & V & NO).
    destruct n as [|n]; [discriminate|]. unfold until in E. rewrite expr_S in E. apply bind_ok in E as ([[[ok3 v3] f3] s3] & E & Q).
    destruct ok3; [|discriminate]. injection Q as _ _ ->.
    destruct n as [|n]; [discriminate|]. rewrite seq_S in E. apply bind_ok in E as ([[[ok4 v4] f4] s4] & E & Q).
    destruct ok4; [|discriminate]. apply bind_ok in Q as ([[[ok5 v5] f5] s5] & E5 & Q). injection Q as -> _ _ ->.
    destruct n as [|n]; [discriminate|]. rewrite expr_S in E. apply bind_ok in E as ([[[ok6 v6] f6] s6] & E & Q).
    injection Q as Q _ _ Q2. destruct ok6; [discriminate|]. clear Q.
    assert (R4 : rest s4 = rest s) by (rewrite <- Q2; reflexivity).
    rewrite seq_S in E5. apply bind_ok in E5 as ([[[ok7 v7] f7] s7] & E7 & Q). destruct ok7; [|discriminate].
    apply bind_ok in Q as ([[[ok8 v8] f8] s8] & E8 & Q). injection Q as _ _ _ ->.
    assert (s7 = s1) as -> by (destruct n; [discriminate|]; rewrite seq_S in E8; injection E8 as _ _ _ ->; reflexivity).
    destruct n as [|n]; [discriminate|]. rewrite expr_S in E7. change (alookup "SourceChar" g) with (Some EAny) in E7. cbv iota in E7.
    apply bind_ok in E7 as ([[[ok9 v9] f9] s9] & E9 & Q). injection Q as -> _ _ ->.
    destruct n as [|n]; [discriminate|]. rewrite expr_S in E9. injection E9 as Q. unfold parseAny in Q.
    destruct (atEnd s4) eqn:AE; [discriminate|]. injection Q as _ _ R1.
    assert (NE : rest s4 <> []) by (intros Q; apply atEnd_spec in Q; congruence).
    destruct (decode_split _ NE) as (u & U & K). rewrite <- read_rest, R1 in U. rewrite R4 in U, K.
    exists (u ++ v). split; [rewrite U, V, app_assoc; reflexivity|]. intros a b z AB BN BZ.
    destruct a as [|x a].
    + cbn [app] in AB. subst b. rewrite <- app_assoc, <- V, <- U in BZ. pose proof (ST _ _ _ _ _ _ _ _ E BZ). discriminate.
    + destruct K as [(c' & -> & _)|(_ & _ & K)].
      * cbn [app] in AB. injection AB as _ AB. exact (NO _ _ _ AB BN BZ).
      * assert (D : exists a', x :: a = u ++ a' /\ v = a' ++ b \/ exists y t, b = y :: t /\ In y u).
        { clear - AB BN. revert u AB. generalize (x :: a) as l. induction l as [|y l IH]; intros u AB.
          - cbn [app] in AB. destruct u as [|y u]; [exists []; left; auto|]. exists []. right. exists y, (u ++ v). cbn in AB. split; [auto|left; auto].
          - destruct u as [|y' u]; [exists (y :: l); left; auto|]. cbn [app] in AB. injection AB as -> AB.
            destruct (IH u AB) as (a' & [[L V]|(t & t' & B & J)]).
            + exists a'. left. rewrite L. auto.
            + exists a'. right. exists t, t'. split; [auto|right; auto]. }
        destruct D as (a' & [[_ V']|(y & t & -> & J)]); [exact (NO _ _ _ V' BN BZ)|].
        cbn [app] in BZ. injection BZ as <- _. pose proof (K _ J). lia.
  - injection H as _ _ <-. exists []. rewrite (stays _ _ _ _ _ _ _ _ E). split; [reflexivity|]. intros a b z AB BN. symmetry in AB. apply app_eq_nil in AB as [_ ->]. congruence.
Qed.

Lemma lit_stop : forall w c w', textOf w = c :: w' -> asciiWord (textOf w) = true ->
  forall n f s ok v f' s' z, parseExpr g n (ELit w) f s = Ok (ok, v, f', s') -> rest s = (c :: w') ++ z -> ok = true.
Proof.
  intros w c w' W A n f s ok v f' s' z H R. destruct n as [|n]; [discriminate|]. rewrite expr_S in H. injection H as H. unfold parseLit in H.
  rewrite <- W in R. pose proof (lit_starts _ _ _ A R) as T. destruct (litLoop (textOf w) s) as [b s1]. cbn [fst] in T. subst b.
  injection H as <- _ _ _. reflexivity.
Qed.
Lemma eol_stop : forall n f s ok v f' s' z, parseExpr g n (ERule "EOL") f s = Ok (ok, v, f', s') ->
  rest s = [ascii_of_nat 10] ++ z -> ok = true.
Proof.
  intros n f s ok v f' s' z H R. destruct n as [|n]; [discriminate|]. rewrite expr_S in H. change (alookup "EOL" g) with (Some (ELit newline)) in H. cbv iota in H.
  apply bind_ok in H as ([[[ok1 v1] f1] s1] & E & Q). injection Q as <- _ _ _.
  eapply (lit_stop newline (ascii_of_nat 10) []); [reflexivity|reflexivity|exact E|exact R].
Qed.

Lemma lit_takes : forall n w f s v f' s', asciiWord (textOf w) = true -> parseExpr g n (ELit w) f s = Ok (true, v, f', s') -> rest s = textOf w ++ rest s'.
Proof.
  intros n w f s v f' s' A H. destruct n as [|n]; [discriminate|]. rewrite expr_S in H. injection H as H. unfold parseLit in H.
  pose proof (lit_word (textOf w) s A) as Q. destruct (litLoop (textOf w) s) as [[] s1]; [|discriminate]. injection H as _ _ <-. apply Q. reflexivity.
Qed.
Lemma star_loop : forall n e f s v f' s', parseExpr g n (EStar e) f s = Ok (true, v, f', s') -> exists m ok vs, parseLoop g m e s = Ok (ok, vs, s').
Proof.
  intros n e f s v f' s' H. destruct n as [|n]; [discriminate|]. rewrite expr_S in H. apply bind_ok in H as ([[ok vs] s1] & E & H).
  injection H as _ _ <-. eauto.
Qed.
Lemma seq_inv : forall n es f s v f' s', parseExpr g n (ESeq es) f s = Ok (true, v, f', s') -> exists m v2 f2, parseSeq g m es f s = Ok (true, v2, f2, s').
Proof.
  intros n es f s v f' s' H. destruct n as [|n]; [discriminate|]. rewrite expr_S in H. apply bind_ok in H as ([[[ok vs] f1] s1] & E & H).
  destruct ok; [|discriminate]. injection H as _ _ <-. eauto.
Qed.
Lemma seq_cons : forall n e es f s v f' s', parseSeq g n (e :: es) f s = Ok (true, v, f', s') ->
  exists m v1 f1 s1 v2, parseExpr g m e f s = Ok (true, v1, f1, s1) /\ parseSeq g m es f1 s1 = Ok (true, v2, f', s').
Proof.
  intros n e es f s v f' s' H. destruct n as [|n]; [discriminate|]. rewrite seq_S in H. apply bind_ok in H as ([[[ok v1] f1] s1] & E & H).
  destruct ok; [|discriminate]. apply bind_ok in H as ([[[ok2 v2] f2] s2] & E2 & H). injection H as -> _ -> ->. do 5 eexists. split; eauto.
Qed.
Lemma seq_nil : forall n f s v f' s', parseSeq g n [] f s = Ok (true, v, f', s') -> s' = s.
Proof. intros n f s v f' s' H. destruct n as [|n]; [discriminate|]. rewrite seq_S in H. injection H as _ _ ->. reflexivity. Qed.

Lemma comment_takes_text : forall x w x', x = w ++ x' -> commentText w -> takes (Some 0) x x'.
Proof.
  intros x w x' -> C. split; [exists w; reflexivity|]. intros P. pose proof (top_app w x') as T.
  rewrite excess_zero in T; [lia|]. apply P; [exists [], x'; reflexivity|exact C].
Qed.
Lemma line_takes : forall n f s v f' s', parseExpr g n rSingleLineComment f s = Ok (true, v, f', s') -> takes (Some 0) (rest s) (rest s').
Proof.
  intros n f s v f' s' H. apply seq_inv in H as (m & v2 & f2 & H). apply seq_cons in H as (m1 & v3 & f3 & s3 & v4 & E & H).
  apply seq_cons in H as (m2 & v5 & f5 & s5 & v6 & E2 & H). apply seq_nil in H as ->. apply lit_takes in E; [|reflexivity].
  apply star_loop in E2 as (m3 & ok & vs & E2).
  destruct (until_text (ascii_of_nat 10) [] (ERule "EOL") ltac:(reflexivity) eol_stop _ _ _ _ _ E2) as (t & T & NO).
  eapply (comment_takes_text _ (textOf "//" ++ t)); [rewrite E, T, app_assoc; reflexivity|]. constructor. intros J.
  apply in_split in J as (a & b & ->). eapply NO; [reflexivity|discriminate|reflexivity].
Qed.
Lemma block_takes : forall n f s v f' s', parseExpr g n rMultiLineComment f s = Ok (true, v, f', s') -> takes (Some 0) (rest s) (rest s').
Proof.
  intros n f s v f' s' H. apply seq_inv in H as (m & v2 & f2 & H). apply seq_cons in H as (m1 & v3 & f3 & s3 & v4 & E & H).
  apply seq_cons in H as (m2 & v5 & f5 & s5 & v6 & E2 & H). apply seq_cons in H as (m4 & v7 & f7 & s7 & v8 & E4 & H).
  apply seq_nil in H as ->. apply lit_takes in E; [|reflexivity]. apply lit_takes in E4; [|reflexivity].
  apply star_loop in E2 as (m3 & ok & vs & E2).
  destruct (until_text "*"%char ["/"%char] (ELit "*/") ltac:(reflexivity) (lit_stop "*/" _ _ eq_refl eq_refl) _ _ _ _ _ E2) as (t & T & NO).
  eapply (comment_takes_text _ (textOf "/*" ++ t ++ textOf "*/")).
  - rewrite E, T, E4, <- !app_assoc. reflexivity.
  - constructor. intros (a & b & ->). eapply NO; [reflexivity|discriminate|reflexivity].
Qed.
Lemma comment_takes : forall n f s v f' s', parseExpr g n rComment f s = Ok (true, v, f', s') -> takes (Some 0) (rest s) (rest s').
Proof.
  intros n f s v f' s' H. destruct n as [|n]; [discriminate|]. unfold rComment in H. rewrite expr_S in H.
  assert (RU : forall m name e f s v f' s', alookup name g = Some e -> parseExpr g m (ERule name) f s = Ok (true, v, f', s') ->
    exists k v2 f2, parseExpr g k e [] s = Ok (true, v2, f2, s')).
  { clear. intros m name e f s v f' s' A H. destruct m as [|m]; [discriminate|]. rewrite expr_S, A in H.
    apply bind_ok in H as ([[[ok1 v1] f1] s1] & E & H). injection H as -> _ _ <-. eauto. }
  destruct n as [|n]; [discriminate|]. rewrite alts_S in H. apply bind_ok in H as ([[[ok1 v1] f1] s1] & E & H). destruct ok1.
  - injection H as _ _ <-. apply (RU _ _ rMultiLineComment) in E as (k & v2 & f2 & E); [|reflexivity]. exact (block_takes _ _ _ _ _ _ E).
  - destruct n as [|n]; [discriminate|]. rewrite alts_S in H. apply bind_ok in H as ([[[ok2 v2] f2] s2] & E2 & H). destruct ok2.
    + injection H as _ _ <-. apply (RU _ _ rSingleLineComment) in E2 as (k & v3 & f3 & E2); [|reflexivity].
      apply line_takes in E2. cbn [restoreState rest] in E2. rewrite (stays _ _ _ _ _ _ _ _ E) in E2. exact E2.
    + destruct n as [|n]; [discriminate|]. rewrite alts_S in H. discriminate.
Qed.

(* ---------- the grammar ---------- *)

Definition balOf (t : amap bal) (name : string) : bal := match alookup name t with Some k => k | None => Some 0 end.
Definition balStep (t : amap bal) : amap bal :=
  map (fun x => (fst x, if String.eqb (fst x) "Comment" then Some 0 else balance (balOf t) (snd x))) g.
Definition balTable : amap bal := Eval vm_compute in Nat.iter 20 balStep [].
Lemma balTable_ok : forallb (fun x => String.eqb (fst x) "Comment" || balLe (balOf balTable (fst x)) (balance (balOf balTable) (snd x))) g = true.
Proof. vm_compute. reflexivity. Qed.
Lemma balTable_sound : forall name e, alookup name g = Some e -> balLe (balOf balTable name) (balance (balOf balTable) e) = true \/
  forall n f s v f' s', parseExpr g n e f s = Ok (true, v, f', s') -> takes (balOf balTable name) (rest s) (rest s').
Proof.
  intros name e A. destruct (String.eqb name "Comment") eqn:E.
  - right. apply String.eqb_eq in E as ->. injection A as <-. exact comment_takes.
  - left. assert (J : In (name, e) g).
    { clear E. revert A. generalize g as m. induction m as [|[k v] m IH]; intros H; [discriminate|]. cbn [alookup] in H. destruct (String.eqb name k) eqn:E.
      - apply String.eqb_eq in E as ->. injection H as <-. left. reflexivity.
      - right. auto. }
    pose proof balTable_ok as K. rewrite forallb_forall in K. specialize (K _ J). cbn [fst snd] in K. rewrite E in K. exact K.
Qed.
Definition braceBalance (e : expr) : bal := balance (balOf balTable) e.
Lemma braceBalance_sound : forall n rule e f s v f' s', exprR g n rule e f s = Ok (true, v, f', s') ->
  takes (braceBalance e) (rest (base s)) (rest (base s')).
Proof. exact (balance_sound g _ balTable_sound). Qed.
