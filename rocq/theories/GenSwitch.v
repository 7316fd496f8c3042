(** The switch generated for a union runs the code of the case that the
    declaration selects. *)
From Coq Require Import ZArith String List Bool Lia ZifyBool ZifyNat.
From Verif Require Import Base Ast IntervalsModel InspectModel InspectSpec InspectProofs BranchProofs GoLang GenModel GenDecode GenCheck
  GenSim GenSimBody WireProofs GenTotal.
Import ListNotations.
Open Scope string_scope.
Open Scope list_scope.
Open Scope Z_scope.

Section Switch.
Variable camel : string -> string.
Variable r : resolver.
Variable rv : string.
Variable types : amap (list (string * gtype)).
Variable call : callfun.
Variable n : nat.
Notation cv := (Constant r).
Notation Exec := (exec types call n).

Lemma leave_leave : forall e0 e : env, leave e0 (leave e0 e) = leave e0 e.
Proof.
  intros e0 e. unfold leave. rewrite skipn_length.
  replace (Datatypes.length e - (Datatypes.length e - Datatypes.length e0) - Datatypes.length e0)%nat with 0%nat by lia. reflexivity.
Qed.

(** The body generated for a case. *)
Definition bodyOf (c : ucase) (b : list stmt) : Prop := mapM (parseMember camel r rv) (ucase_members c) = Ok b.

Lemma default_exec : forall tag cs cases e, pCases camel r rv tag cs = Ok cases ->
  (exists pre c post b, cs = pre ++ c :: post /\ ucase_list c = None /\ Forall (fun p => ucase_list p <> None) pre /\ bodyOf c b /\
     swDefault types call n e cases = block types call n b e) \/
  Forall (fun p => ucase_list p <> None) cs /\ swDefault types call n e cases = (e, SNext).
Proof.
  intros tag. induction cs as [|[[l|] ms] cs IH]; intros cases e H; cbn [pCases] in H.
  - injection H as <-. right. split; auto.
  - apply bind_ok in H as (ce & _ & H). apply bind_ok in H as (b & _ & H). apply bind_ok in H as (rest & Hr & H). injection H as <-.
    cbn [swDefault]. destruct (IH _ e Hr) as [(pre & c & post & b' & -> & N & F & B & E)|[F E]].
    + left. exists (UCase (Some l) ms :: pre), c, post, b'. repeat (split; auto). constructor; auto. discriminate.
    + right. split; auto. constructor; auto. discriminate.
  - apply bind_ok in H as (b & Hb & H). apply bind_ok in H as (rest & Hr & H). injection H as <-. cbn [swDefault].
    left. exists [], (UCase None ms), cs, b. repeat (split; auto). unfold bodyOf. cbn. now rewrite <- pMembers_eq.
Qed.

Lemma pick_exec : forall tag x allc e, eval types e (refExpr camel rv tag) = Ok (VInt x) -> forall cs cases, pCases camel r rv tag cs = Ok cases ->
  (forall l ms, In (UCase (Some l) ms) cs -> l <> []) ->
  (exists pre c post b, cs = pre ++ c :: post /\ case_matches cv c x /\ Forall (fun p => ~ case_matches cv p x) pre /\ bodyOf c b /\
     swPick types call n e allc cases = block types call n b e) \/
  Forall (fun p => ~ case_matches cv p x) cs /\ swPick types call n e allc cases = swDefault types call n e allc.
Proof.
  intros tag x allc e E. induction cs as [|[[l|] ms] cs IH]; intros cases H NE; cbn [pCases] in H.
  - injection H as <-. right. split; auto.
  - apply bind_ok in H as (ce & Hc & H). apply bind_ok in H as (b & Hb & H). apply bind_ok in H as (rest & Hr & H). injection H as <-.
    cbn [swPick]. rewrite (conditional_eval _ _ _ _ x _ _ Hc (NE _ _ (or_introl eq_refl)) E). cbn [lift].
    destruct (inList r x l) eqn:IL.
    + left. exists [], (UCase (Some l) ms), cs, b. repeat (split; auto).
      * exists l. split; auto. now apply inList_spec.
      * unfold bodyOf. cbn. now rewrite <- pMembers_eq.
    + assert (NM : ~ case_matches cv (UCase (Some l) ms) x).
      { intros (l' & E' & I'). injection E' as <-. apply inList_spec in I'. congruence. }
      destruct (IH _ Hr ltac:(intros; eapply NE; right; eauto)) as [(pre & c & post & b' & -> & M & F & B & EQ)|[F EQ]].
      * left. exists (UCase (Some l) ms :: pre), c, post, b'. repeat (split; auto).
      * right. split; auto.
  - apply bind_ok in H as (b & Hb & H). apply bind_ok in H as (rest & Hr & H). injection H as <-. cbn [swPick].
    assert (NM : ~ case_matches cv (UCase None ms) x) by (intros (l' & E' & _); discriminate).
    destruct (IH _ Hr ltac:(intros; eapply NE; right; eauto)) as [(pre & c & post & b' & -> & M & F & B & EQ)|[F EQ]].
    + left. exists (UCase None ms :: pre), c, post, b'. repeat (split; auto).
    + right. split; auto.
Qed.

Theorem union_runs : forall u tag cs st e x, parseMember camel r rv (MUnion u tag None cs) = Ok st ->
  (forall l ms, In (UCase (Some l) ms) cs -> l <> []) -> one_default cs -> eval types e (refExpr camel rv tag) = Ok (VInt x) ->
  (forall c, takes cv cs x c -> exists b, bodyOf c b /\ Exec st e = Exec (SBlock b) e) /\
  ((forall c, ~ takes cv cs x c) -> Exec st e = (e, SNext)).
Proof.
  intros u tag cs st e x H NE OD E. rewrite GenTotal.parseMember_union in H. apply bind_ok in H as (cases & Hc & H). injection H as <-.
  assert (X : Exec (SBlock [SSwitch cases]) e = let '(e1, q) := swPick types call n e cases cases in (leave e e1, q)).
  { rewrite exec_block. unfold block. rewrite execs_cons, exec_switch. destruct (swPick types call n e cases cases) as [e1 []]; reflexivity. }
  rewrite X. clear X.
  assert (BL : forall b, (let '(e1, q) := block types call n b e in (leave e e1, q)) = Exec (SBlock b) e).
  { intros b. rewrite exec_block. unfold block. destruct (execs types call n b e) as [e1 q]. now rewrite leave_leave. }
  destruct (pick_exec tag x cases e E cs cases Hc NE) as [(pre & c & post & b & EQ & M & F & B & ->)|[F ->]].
  - assert (T : takes cv cs x c) by (left; eauto). split.
    + intros c' T'. rewrite (takes_unique _ _ _ _ _ OD T' T). exists b. split; auto.
    + intros N. exfalso. eapply N; eauto.
  - destruct (default_exec tag cs cases e Hc) as [(pre & c & post & b & EQ & L & F' & B & ->)|[F' ->]].
    + assert (T : takes cv cs x c) by (right; rewrite EQ; rewrite in_app_iff; rewrite EQ in F; cbn; auto). split.
      * intros c' T'. rewrite (takes_unique _ _ _ _ _ OD T' T). exists b. split; auto.
      * intros N. exfalso. eapply N; eauto.
    + split; [|intros _; unfold leave; now rewrite Nat.sub_diag].
      intros c T. exfalso. rewrite Forall_forall in F, F'. destruct T as [(pre & post & -> & M & _)|(_ & I & L)].
      * apply (F c); auto. rewrite in_app_iff. cbn. auto.
      * apply (F' c); auto.
Qed.
End Switch.

(** C10. *)
Lemma condition_exact : forall r types e v x l c, conditional r v l = Ok c -> l <> [] -> eval types e v = Ok (VInt x) ->
  exists b, eval types e c = Ok (VBool b) /\ (b = true <-> in_list (Constant r) l x).
Proof.
  intros r types e v x l c H N E. exists (inList r x l). split; [eapply conditional_eval; eauto|apply inList_spec].
Qed.
Lemma condition_agrees : forall r types e v x l c s, good_list (Constant r) l -> l <> [] ->
  conditional r v l = Ok c -> Intervals r l = Ok s -> eval types e v = Ok (VInt x) ->
  eval types e c = Ok (VBool (Contains s x)).
Proof.
  intros r types e v x l c s G N H I E. destruct (condition_exact _ _ _ _ _ _ _ H N E) as (b & EB & IFF). rewrite EB. do 2 f_equal.
  destruct (Intervals_correct r l G) as [[_ X]|(_ & s' & X & _ & C)]; [congruence|]. rewrite I in X. injection X as <-.
  specialize (C x). apply eq_true_iff_eq. tauto.
Qed.

(** C11. *)
Lemma lookup_agrees : forall camel r s tag cs sz cst bs, Forall (good_case (Constant r)) cs -> one_default cs ->
  IntType r tag s = Ok (sz, cst) -> 0 <= sz <= 64 -> NewBranches r s tag cs = Ok bs ->
  forall x, 0 <= x < 2 ^ sz ->
  forall rv types call n u st e, parseMember camel r rv (MUnion u tag None cs) = Ok st ->
  eval types e (refExpr camel rv tag) = Ok (VInt x) ->
  match Lookup bs x with
  | Some b => exists code, bodyOf camel r rv (bcase b) code /\ exec types call n st e = exec types call n (SBlock code) e
  | None => exec types call n st e = (e, SNext)
  end.
Proof.
  intros camel r s tag cs sz cst bs G OD IT SZ NB x X rv types call n u st e P E.
  assert (NE : forall l ms, In (UCase (Some l) ms) cs -> l <> []).
  { intros l ms I. rewrite Forall_forall in G. specialize (G _ I). cbn in G. tauto. }
  destruct (union_runs camel r rv types call n u tag cs st e x P NE OD E) as [A B].
  pose proof (lookup_takes r s tag cs sz cst bs x G OD IT SZ NB X) as L.
  destruct (Lookup bs x) as [b|].
  - apply A. apply L. eauto.
  - apply B. intros c T. apply L in T as (b & EQ & _). discriminate.
Qed.

(** C28. *)
Lemma marshallers_iff : forall camel os fs r, NewResolverFiles os fs = Ok r ->
  ((exists p, Marshallers camel os fs = Ok p) <-> filesResolve r fs).
Proof. intros camel os fs r H. unfold Marshallers. rewrite H. cbn [bind]. apply genProgram_isOk. Qed.
Lemma marshallers_no_err : forall camel os fs r e, NewResolverFiles os fs = Ok r -> Marshallers camel os fs <> Err e.
Proof.
  intros camel os fs r e H. unfold Marshallers. rewrite H. cbn [bind]. pose proof (genProgram_okOrPanic camel r fs) as O.
  intros E. rewrite E in O. exact O.
Qed.
