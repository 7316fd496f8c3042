(** The heap of the test vector generator: slices that share arrays, and
    constraint maps that only grow. *)
From Coq Require Import ZArith String List Bool Lia Arith Permutation.
From Verif Require Import Base Ast IntervalsModel InspectModel InspectProofs TvModel TvConstraints.
Import ListNotations.
Open Scope string_scope.
Open Scope list_scope.
Open Scope nat_scope.

(* ---------- lists ---------- *)

Lemma setNth_length : forall {A} n (x : A) l, List.length (setNth n x l) = List.length l.
Proof.
  intros. unfold setNth. rewrite <- (firstn_skipn n l) at 3. rewrite !app_length. f_equal.
  destruct (skipn n l); reflexivity.
Qed.
Lemma setNth_same : forall {A} n (x d : A) l, n < List.length l -> nth n (setNth n x l) d = x.
Proof.
  intros. unfold setNth. assert (L : List.length (firstn n l) = n) by (rewrite firstn_length; lia).
  rewrite app_nth2 by lia. rewrite L, Nat.sub_diag.
  destruct (skipn n l) eqn:E; [|reflexivity]. apply (f_equal (@List.length A)) in E. rewrite skipn_length in E. cbn in E. lia.
Qed.
Lemma setNth_other : forall {A} n m (x d : A) l, m <> n -> nth m (setNth n x l) d = nth m l d.
Proof.
  intros. unfold setNth. destruct (Nat.lt_ge_cases n (List.length l)) as [L|L].
  - assert (LF : List.length (firstn n l) = n) by (rewrite firstn_length; lia).
    assert (E : exists y t, skipn n l = y :: t).
    { destruct (skipn n l) eqn:E; [|eauto]. apply (f_equal (@List.length A)) in E. rewrite skipn_length in E. cbn in E. lia. }
    destruct E as (y & t & E). rewrite E. rewrite <- (firstn_skipn n l) at 2. rewrite E.
    destruct (Nat.lt_ge_cases m n).
    + rewrite !app_nth1 by lia. reflexivity.
    + rewrite !app_nth2 by lia. rewrite LF. destruct (m - n) eqn:Q; [lia|]. reflexivity.
  - rewrite skipn_all2 by lia. rewrite app_nil_r, firstn_all2 by lia. reflexivity.
Qed.

(* ---------- slices ---------- *)

Definition capOf (g : gst) (s : slice) : nat := List.length (nth (sbuf s) (bufs g) []).
Definition okS (g : gst) (s : slice) : Prop := sbuf s < List.length (bufs g) /\ slen s <= capOf g s.
Definition full (g : gst) (s : slice) : Prop := slen s = capOf g s.
(** Two slices of one array are both full, so that neither can be extended in place. *)
Definition apartS (g : gst) (a b : slice) : Prop := sbuf a = sbuf b -> full g a /\ full g b.
Fixpoint safe (g : gst) (l : list slice) : Prop :=
  match l with [] => True | a :: l' => Forall (apartS g a) l' /\ safe g l' end.

(** Old arrays keep their contents. *)
Definition keepB (b : nat) (g g' : gst) : Prop :=
  List.length (bufs g) <= List.length (bufs g') /\ forall i, i < b -> nth i (bufs g') [] = nth i (bufs g) [].
(** Only arrays change. *)
Definition sameM (g g' : gst) : Prop := maps g' = maps g /\ cur g' = cur g /\ rnd g' = rnd g /\ calls g' = calls g.

Lemma apartS_sym : forall g a b, apartS g a b -> apartS g b a.
Proof. unfold apartS. intros g a b H E. destruct H; auto. Qed.
Lemma safe_app : forall g l1 l2, safe g (l1 ++ l2) <-> safe g l1 /\ safe g l2 /\ Forall (fun a => Forall (apartS g a) l2) l1.
Proof.
  induction l1 as [|a l1 IH]; intros; cbn; [intuition|]. rewrite IH, Forall_app. split.
  - intros ((A & B) & C & D & E). repeat split; auto.
  - intros ((A & B) & C & D). inversion D; subst. repeat split; auto.
Qed.
Lemma safe_perm : forall g l l', Permutation l l' -> safe g l -> safe g l'.
Proof.
  induction 1; cbn; intros; auto.
  - destruct H0. split; auto. eapply Permutation_Forall; eauto.
  - destruct H as (A & B & C). inversion A; subst. split; [constructor; auto; now apply apartS_sym|auto].
Qed.
Lemma safe_new : forall g a l, (forall b, In b l -> sbuf b <> sbuf a) -> safe g l -> safe g (a :: l).
Proof. intros. cbn. split; auto. apply Forall_forall. intros b I E. exfalso. apply (H b I). auto. Qed.
Lemma safe_ext : forall g g' l, (forall s, In s l -> capOf g' s = capOf g s) -> safe g l -> safe g' l.
Proof.
  induction l as [|a l IH]; cbn; intros C S; [auto|]. destruct S as (F & S). split.
  - rewrite Forall_forall in *. intros b I E. destruct (F b I E) as (A & B). unfold full in *.
    rewrite !C by auto. auto.
  - apply IH; auto.
Qed.

Lemma readS_length : forall g s, okS g s -> List.length (readS g s) = slen s.
Proof. intros g s (A & B). unfold readS. rewrite firstn_length. unfold capOf in B. lia. Qed.

Section Grow.
Variable grow : nat -> nat -> nat.

(** Everything a slice that may be overwritten does not see. *)
Lemma append_spec : forall a b g d g', okS g a -> appendS grow a b g = (d, g') ->
  sameM g g' /\ okS g' d /\ readS g' d = readS g a ++ b /\ slen d = slen a + List.length b /\
  (sbuf d = sbuf a \/ sbuf d = List.length (bufs g)) /\
  List.length (bufs g) <= List.length (bufs g') /\
  (forall i, i < List.length (bufs g) -> i <> sbuf a -> nth i (bufs g') [] = nth i (bufs g) []) /\
  (forall s, okS g s -> capOf g' s = capOf g s) /\
  (forall s, okS g s -> (sbuf s = sbuf a -> full g a) -> readS g' s = readS g s) /\
  (forall s, okS g s -> apartS g a s -> apartS g' d s) /\
  ((forall c n, grow c n <= n) -> full g a -> full g' d) /\
  (full g a -> nth (sbuf a) (bufs g') [] = nth (sbuf a) (bufs g) []).
Proof.
  intros a b g d g' (OA & OL) H. unfold appendS in H. unfold capOf in OL.
  set (old := nth (sbuf a) (bufs g) []) in *. set (need := slen a + List.length b) in *.
  assert (LF : List.length (firstn (slen a) old) = slen a) by (rewrite firstn_length; lia).
  destruct (Nat.leb_spec need (List.length old)) as [N|N]; inversion H; subst d g'; clear H; cbn [bufs sbuf slen maps cur rnd calls].
  - set (nb := (firstn (slen a) old ++ b ++ skipn need old) : bytes).
    assert (LN : List.length nb = List.length old) by (unfold nb; rewrite !app_length, skipn_length, LF; unfold need in *; lia).
    assert (NS : @nth bytes (sbuf a) (@setNth (list Z) (sbuf a) nb (bufs g)) [] = nb) by (apply setNth_same; auto).
    assert (FU : full g a -> nb = old).
    { unfold full, capOf. fold old. intros F. assert (B0 : b = []) by (destruct b; [auto|unfold need in N; cbn in N; lia]). subst b. unfold nb, need.
      cbn [List.length app]. rewrite Nat.add_0_r. apply firstn_skipn. }
    split; [unfold sameM; cbn; auto|]. split; [split; cbn [slen sbuf bufs]; [rewrite setNth_length; auto|unfold capOf; cbn [slen sbuf bufs]; rewrite NS, LN; auto]|].
    split; [unfold readS; cbn [slen sbuf bufs]; rewrite NS; fold old; unfold nb|].
    { rewrite app_assoc. rewrite firstn_app. rewrite app_length, LF. fold need. rewrite Nat.sub_diag. cbn [firstn].
      rewrite app_nil_r. apply firstn_all2. rewrite app_length, LF. unfold need. lia. }
    split; [auto|]. split; [auto|]. split; [rewrite setNth_length; auto|].
    split; [intros; now apply setNth_other|].
    assert (CP : forall s, List.length (@nth bytes (sbuf s) (@setNth (list Z) (sbuf a) nb (bufs g)) []) = List.length (nth (sbuf s) (bufs g) [])).
    { intros s. destruct (Nat.eq_dec (sbuf s) (sbuf a)) as [E|E]; [rewrite E, NS, LN; auto|rewrite setNth_other; auto]. }
    split; [intros; unfold capOf; cbn [slen sbuf bufs]; apply CP|].
    split.
    { intros s S F. unfold readS. cbn [bufs]. destruct (Nat.eq_dec (sbuf s) (sbuf a)) as [E|E].
      - rewrite E, NS. fold old. rewrite FU; auto.
      - rewrite setNth_other; auto. }
    split.
    { intros s S AP E. cbn [sbuf] in E. destruct (AP E) as (F1 & F2). unfold full, capOf in *. cbn [slen sbuf bufs].
      rewrite !CP. fold old. fold old in F1. split; [|auto]. unfold need. unfold need in N. lia. }
    split; [intros _ F; unfold full, capOf in *; cbn [slen sbuf bufs]; rewrite NS, LN; fold old in F; unfold need in *; lia|].
    intros F. rewrite NS. now apply FU.
  - set (nb := (firstn (slen a) old ++ b ++ repeat 0%Z (grow (List.length old) need - need)) : bytes).
    assert (NS : @nth bytes (List.length (bufs g)) (@app bytes (bufs g) (@Datatypes.cons (list Z) nb (@nil (list Z)))) [] = nb) by (rewrite app_nth2, Nat.sub_diag by lia; reflexivity).
    assert (NO : forall i, i < List.length (bufs g) -> @nth bytes i (@app bytes (bufs g) (@Datatypes.cons (list Z) nb (@nil (list Z)))) [] = nth i (bufs g) []) by (intros; apply app_nth1; auto).
    split; [unfold sameM; cbn; auto|].
    split; [split; cbn [slen sbuf bufs]; [rewrite app_length; cbn; lia|unfold capOf; cbn [slen sbuf bufs]; rewrite NS; unfold nb, need; rewrite !app_length, LF; lia]|].
    split; [unfold readS; cbn [slen sbuf bufs]; rewrite NS; fold old; unfold nb|].
    { rewrite app_assoc. rewrite firstn_app. rewrite app_length, LF. fold need. rewrite Nat.sub_diag. cbn [firstn].
      rewrite app_nil_r. apply firstn_all2. rewrite app_length, LF. unfold need. lia. }
    split; [auto|]. split; [auto|]. split; [rewrite app_length; lia|]. split; [intros; apply NO; auto|].
    split; [intros s (S & _); unfold capOf; cbn [slen sbuf bufs]; rewrite NO; auto|].
    split; [intros s (S & _) _; unfold readS; cbn [slen sbuf bufs]; rewrite NO; auto|].
    split; [intros s (S & _) _ E; cbn in E; lia|].
    split; [intros GR _; unfold full, capOf; cbn [slen sbuf bufs]; rewrite NS; unfold nb; rewrite !app_length, LF, repeat_length;
            specialize (GR (List.length old) need); unfold need in *; lia|].
    intros _. apply NO. auto.
Qed.

(** [prepend]: every vector of [mvs] is extended by the bytes [dv] of [v].
    [ks] are other slices in use. *)
Lemma prepend_spec : forall v mvs g e g' B ks, prepend grow v mvs g = (e, g') ->
  okS g (vdata v) -> sbuf (vdata v) < B -> Forall (fun m => okS g (vdata m) /\ B <= sbuf (vdata m)) mvs ->
  Forall (okS g) ks -> safe g (map vdata mvs ++ ks) ->
  sameM g g' /\ keepB B g g' /\
  Forall2 (fun m d => okS g' (vdata d) /\ B <= sbuf (vdata d) /\ vcons d = vcons m /\ readS g' (vdata d) = readS g (vdata m) ++ readS g (vdata v)) mvs e /\
  Forall (fun k => okS g' k /\ readS g' k = readS g k /\ capOf g' k = capOf g k) ks /\
  safe g' (map vdata e ++ ks) /\
  ((forall c n, grow c n <= n) -> Forall (fun m => full g (vdata m)) mvs -> Forall (fun d => full g' (vdata d)) e).
Proof.
  intros v. induction mvs as [|m mvs IH]; intros g e g' B ks H OV BV OM OK S.
  - cbn in H. inversion H; subst. repeat split; auto. eapply Forall_impl; [|exact OK]; auto.
  - cbn [prepend] in H. destruct (appendS grow (vdata m) (readS g (vdata v)) g) as [d g1] eqn:EA.
    destruct (prepend grow v mvs g1) as [rest g2] eqn:EP. inversion H; subst e g'. clear H.
    inversion OM as [|? ? (OM1 & BM) OM2]; subst.
    destruct (append_spec _ _ _ _ _ OM1 EA) as ((M1 & M2 & M3 & M4) & OD & RD & LD & BD & LB & NB & CP & RS & AP & FR & FN).
    assert (OKS : forall s, okS g s -> okS g1 s) by (intros s (X & Y); split; [lia|rewrite CP; [auto|split; auto]]).
    cbn [map] in S. rewrite <- app_comm_cons in S. destruct S as (SA & SB). apply Forall_app in SA. destruct SA as (SA1 & SA2).
    assert (RV : readS g1 (vdata v) = readS g (vdata v)) by (apply RS; auto; intros E; lia).
    assert (RM : forall s, In s (map vdata mvs ++ ks) -> okS g s -> readS g1 s = readS g s).
    { intros s I O. apply RS; auto. intros E. apply in_app_or in I. rewrite Forall_forall in SA1, SA2.
      destruct I as [I|I]; [destruct (SA1 _ I)|destruct (SA2 _ I)]; auto. }
    assert (OKa : forall s, In s (map vdata mvs ++ ks) -> okS g s).
    { intros s I. apply in_app_or in I as [I|I].
      - apply in_map_iff in I as (m' & <- & I). rewrite Forall_forall in OM2. apply OM2; auto.
      - rewrite Forall_forall in OK. auto. }
    specialize (IH g1 rest g2 B (d :: ks) EP).
    destruct IH as ((N1 & N2 & N3 & N4) & (KB1 & KB2) & F2 & FK & SF & FF).
    + now apply OKS.
    + auto.
    + eapply Forall_impl; [|exact OM2]. cbn. intros x (X & Y). split; auto.
    + constructor; auto. eapply Forall_impl; [|exact OK]. auto.
    + apply (safe_perm g1 (d :: map vdata mvs ++ ks)); [apply Permutation_middle|]. cbn. split.
      * apply Forall_forall. intros s I. apply AP; [auto|]. apply in_app_or in I. rewrite Forall_forall in SA1, SA2.
        destruct I as [I|I]; auto.
      * apply (safe_ext g); auto.
    + inversion FK as [|? ? (OD2 & RD2 & CD2) FK']; subst.
      split; [unfold sameM; repeat split; congruence|].
      split; [split; [lia|intros i I; destruct OM1; rewrite KB2, NB; auto; lia]|].
      split; [constructor|].
      * cbn. split; auto. split; [destruct BD as [->| ->]; [lia|destruct OM1; lia]|]. split; auto. rewrite RD2, RD. auto.
      * assert (IN : forall x, In x mvs -> readS g1 (vdata x) = readS g (vdata x)) by (intros x I; apply RM; [apply in_or_app; left; now apply in_map|apply OKa, in_or_app; left; now apply in_map]).
        clear - F2 RV IN. induction F2; constructor.
        -- destruct H as (A & B0 & C & D). repeat split; auto; try apply A. rewrite D, RV. rewrite IN; auto. left; auto.
        -- apply IHF2. intros; apply IN; right; auto.
      * split; [|split].
        -- apply Forall_forall. intros k I. rewrite Forall_forall in FK'. destruct (FK' k I) as (A & B0 & C).
           assert (Ik : In k (map vdata mvs ++ ks)) by (apply in_or_app; auto).
           split; auto. split; [rewrite B0; apply RM; auto|rewrite C; apply CP; auto].
        -- apply (safe_perm g2 (map vdata rest ++ d :: ks)); [apply Permutation_sym, (Permutation_middle (map vdata rest))|auto].
        -- intros GR FM. inversion FM; subst. constructor.
           ++ cbn. unfold full. rewrite CD2. apply FR; auto.
           ++ apply FF; auto. rewrite Forall_forall in *. intros x I. unfold full. rewrite CP; [apply H2; auto|apply OM2; auto].
Qed.
End Grow.
