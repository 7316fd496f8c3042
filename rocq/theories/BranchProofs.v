From Coq Require Import ZArith String List Bool Lia Permutation.
From Coq Require Import ZifyBool.
From Verif Require Import Base Ast IntervalsModel IntervalsSpec IntervalsProofs InspectModel InspectSpec InspectProofs.
Import ListNotations.
Open Scope string_scope.
Open Scope list_scope.
Open Scope Z_scope.

Lemma Intervals_ok : forall r l s, good_list (Constant r) l -> Intervals r l = Ok s ->
  wf_set s /\ (forall x, Contains s x = true <-> in_list (Constant r) l x) /\ (l <> [] -> intervals s <> []).
Proof.
  intros r l s G E. destruct (Intervals_correct r l G) as [(_ & E')|(_ & s' & E' & W & C)]; [congruence|].
  assert (s' = s) by congruence. subst s'. split; auto. split; auto.
  intros NE. destruct l as [|g l]; [congruence|]. inversion G as [|? ? (a & b & R & ? & ? & ?) ?]; subst.
  assert (X : Contains s a = true) by (apply C; exists g, a, b; repeat split; cbn; auto; lia).
  apply contains_covers in X. destruct X as (i & Ii & _). destruct (intervals s); [contradiction|discriminate].
Qed.

Lemma branchLoop_spec : forall r cs d k bs d' k', Forall (good_case (Constant r)) cs -> wf_set d ->
  branchLoop r cs d k = Ok (bs, d', k') ->
  wf_set d' /\
  (forall x, Contains d' x = true <-> Contains d x = true /\ Forall (fun p => ~ case_matches (Constant r) p x) cs) /\
  (forall x, match find (fun b => Contains (bset b) x) bs with
     | Some b => exists pre post, cs = pre ++ bcase b :: post /\ case_matches (Constant r) (bcase b) x /\
                   Forall (fun p => ~ case_matches (Constant r) p x) pre
     | None => Forall (fun p => ~ case_matches (Constant r) p x) cs
     end) /\
  (k' = k /\ Forall (fun c => ucase_list c <> None) cs \/
   exists c, k' = Some c /\ In c cs /\ ucase_list c = None).
Proof.
  induction cs as [|c cs IH]; intros d k bs d' k' G W H; cbn [branchLoop] in H.
  - injection H as <- <- <-. split; auto. split; [|split].
    + intros x. split; [split; auto|tauto].
    + cbn. auto.
    + left. auto.
  - inversion G as [|? ? Gc G']; subst. unfold good_case in Gc.
    destruct (ucase_list c) as [l|] eqn:L.
    + destruct Gc as [NE Gl].
      destruct (Intervals r l) as [s| | |] eqn:EI; try discriminate. cbn [bind] in H.
      destruct (Intervals_ok r l s Gl EI) as (Ws & Cs & Ns). specialize (Ns NE).
      destruct (subtract_correct d s W Ws Ns) as (d1 & Es & W1 & C1). rewrite Es in H. cbn [bind] in H.
      destruct (branchLoop r cs d1 k) as [[[bs1 d2] k2]| | |] eqn:EL; try discriminate. cbn [bind] in H.
      injection H as <- <- <-.
      destruct (IH _ _ _ _ _ G' W1 EL) as (W2 & C2 & F2 & K2).
      assert (MC : forall x, case_matches (Constant r) c x <-> Contains s x = true).
      { intros x. rewrite Cs. split.
        - intros (l' & E' & I'). congruence.
        - intros I. exists l. auto. }
      split; auto. split; [|split].
      * intros x. rewrite C2, C1. split.
        -- intros ((A & B) & C). split; auto. constructor; auto. rewrite MC. congruence.
        -- intros (A & B). inversion B as [|? ? B1 B2]; subst. rewrite MC in B1. repeat split; auto.
           destruct (Contains s x); congruence.
      * intros x. cbn [find bset]. destruct (Contains s x) eqn:CX; cbn [bcase].
        -- exists [], cs. split; auto. split; [|constructor]. now apply MC.
        -- specialize (F2 x). assert (NM : ~ case_matches (Constant r) c x) by (rewrite MC; congruence).
           destruct (find _ bs1).
           ++ destruct F2 as (pre & post & -> & M & N). exists (c :: pre), post. split; auto.
           ++ constructor; auto.
      * destruct K2 as [(-> & K2)|(c0 & -> & I0 & L0)].
        -- left. split; auto. constructor; auto. congruence.
        -- right. exists c0. cbn. auto.
    + destruct (IH _ _ _ _ _ G' W H) as (W2 & C2 & F2 & K2).
      assert (NM : forall x, ~ case_matches (Constant r) c x) by (intros x (l' & E' & _); congruence).
      split; auto. split; [|split].
      * intros x. rewrite C2. split; intros (A & B); split; auto. now inversion B.
      * intros x. specialize (F2 x). destruct (find _ bs).
        -- destruct F2 as (pre & post & -> & M & N). exists (c :: pre), post. split; auto.
        -- constructor; auto.
      * right. destruct K2 as [(-> & K2)|(c0 & -> & I0 & L0)]; [exists c|exists c0]; cbn; auto.
Qed.

Lemma takes_unique : forall cv cs x c c', one_default cs -> takes cv cs x c -> takes cv cs x c' -> c = c'.
Proof.
  intros cv cs x c c' OD.
  assert (L : forall cs pre c post pre' c' post', cs = pre ++ c :: post -> cs = pre' ++ c' :: post' ->
     case_matches cv c x -> case_matches cv c' x ->
     Forall (fun p => ~ case_matches cv p x) pre -> Forall (fun p => ~ case_matches cv p x) pre' -> c = c').
  { clear. intros cs pre. revert cs. induction pre as [|p pre IH]; intros cs c post pre' c' post' E E' M M' N N'.
    - destruct pre' as [|p' pre']; subst; cbn in E'; [congruence|]. injection E' as -> _.
      inversion N'; contradiction.
    - destruct pre' as [|p' pre']; subst; cbn in E'.
      + injection E' as -> _. inversion N; contradiction.
      + injection E' as <- E'. inversion N; inversion N'; subst. eapply (IH _ c post pre' c' post' eq_refl); eauto. }
  intros [(pre & post & E & M & N)|(N & I & D)] [(pre' & post' & E' & M' & N')|(N' & I' & D')].
  - eapply (L cs pre c post pre' c' post'); eauto.
  - exfalso. rewrite Forall_forall in N'. apply (N' c); auto. rewrite E. apply in_or_app. cbn; auto.
  - exfalso. rewrite Forall_forall in N. apply (N c'); auto. rewrite E'. apply in_or_app. cbn; auto.
  - apply in_split in I. destruct I as (l1 & l2 & ->). apply in_app_or in I'.
    destruct I' as [I'|[<-|I']]; auto.
    + apply in_split in I'. destruct I' as (a & b & ->). exfalso. eapply (OD a c' b c l2); eauto.
      now rewrite <- app_assoc.
    + apply in_split in I'. destruct I' as (a & b & ->). exfalso. eapply (OD l1 c a c' b); eauto.
Qed.

Theorem lookup_takes : forall r s tag cs sz cst bs x,
  Forall (good_case (Constant r)) cs -> one_default cs ->
  IntType r tag s = Ok (sz, cst) -> 0 <= sz <= 64 ->
  NewBranches r s tag cs = Ok bs -> 0 <= x < 2 ^ sz ->
  forall c, (exists b, Lookup bs x = Some b /\ bcase b = c) <-> takes (Constant r) cs x c.
Proof.
  intros r s tag cs sz cst bs x G OD ET Hs H Hx c.
  unfold NewBranches in H. rewrite ET in H. cbn [bind] in H.
  destruct (inttype_correct sz Hs) as (d0 & E0 & W0 & C0). rewrite E0 in H. cbn [bind] in H.
  destruct (branchLoop r cs d0 None) as [[[bs0 d] k]| | |] eqn:EL; try discriminate. cbn [bind] in H.
  destruct (branchLoop_spec _ _ _ _ _ _ _ G W0 EL) as (W & C & F & K).
  assert (U : u64 x = x).
  { unfold u64. apply Z.mod_small. assert (2 ^ sz <= 2 ^ 64) by (apply Z.pow_le_mono_r; lia).
    change (2 ^ 64) with two64 in *. lia. }
  specialize (F x). 
  assert (EX : exists o, Lookup bs x = o /\
    match o with Some b => takes (Constant r) cs x (bcase b) | None => forall c, ~ takes (Constant r) cs x c end).
  { eexists; split; [reflexivity|]. unfold Lookup. rewrite U.
    assert (NX : Forall (fun p => ~ case_matches (Constant r) p x) cs ->
                 Forall (fun c => ucase_list c <> None) cs -> forall c, ~ takes (Constant r) cs x c).
    { intros N D c0 [(pre & post & E & M & _)|(_ & I & Dc)]; rewrite Forall_forall in *.
      - apply (N c0); auto. subst. apply in_or_app; cbn; auto.
      - apply (D c0); auto. }
    destruct k as [dc|]; injection H as <-.
    - assert (FA : forall l b, find (fun b => Contains (bset b) x) (l ++ [b]) =
         match find (fun b => Contains (bset b) x) l with Some b' => Some b'
         | None => if Contains (bset b) x then Some b else None end).
      { clear. induction l as [|a l IH]; intros b; cbn [app find]; auto. destruct (Contains (bset a) x); auto. }
      rewrite FA. destruct (find _ bs0) as [b|].
      + left. exact F.
      + cbn [bset]. assert (CD : Contains d x = true) by (apply C; split; auto; now apply C0).
        rewrite CD. cbn [bcase]. right. split; auto.
        destruct K as [(K & _)|(c0 & K & I & D)]; [discriminate|]. injection K as <-. auto.
    - destruct (find _ bs0) as [b|].
      + left. exact F.
      + destruct K as [(_ & K)|(c0 & K & I & D)]; [|discriminate]. auto. }
  destruct EX as (o & EO & HO). rewrite EO. split.
  - intros (b & E & <-). subst o. rewrite E in HO. exact HO.
  - intros T. destruct o as [b|]; [|exfalso; eapply HO; eauto].
    exists b. split; auto. eapply takes_unique; eauto.
Qed.

(** A case with an empty list (possible only through the API) makes the default
    unreachable to [Lookup]. *)
