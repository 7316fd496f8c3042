(** Calls of methods and of the ParseX functions on the machine with memory. *)
From Coq Require Import ZArith String List Bool Lia ZifyBool ZifyNat Permutation.
From Verif Require Import Base GoLang GenSim GoMem MemSim MemPath MemExec MemStep MemFill.
Import ListNotations.
Open Scope string_scope.
Open Scope list_scope.
Open Scope Z_scope.

Section Old.
Context {oldI : Old}.

Section Sim.
Variable ari : string -> nat -> Prop.
Variable ro : loc -> Prop.
Variable self : hval.
Variable pl : platform.
Hypothesis wide : word pl = 8.
Variable types : amap (list (string * gtype)).
Variable call : callfun.
Variable hcall : hcallfun.
Variable n : nat.
Hypothesis CR : callR ari ro call hcall.

Theorem sim_ok :
  (forall G s G', okS ari G s G' -> simS ro self pl types call hcall n G s G') /\
  (forall G b G', okB ari G b G' -> simB ro self pl types call hcall n G b G') /\
  (forall G cs, okC ari G cs -> (forall c b, In (Some c, b) cs -> pureE G c = true) /\ (forall o b, In (o, b) cs -> simK ro self pl types call hcall n G b)).
Proof.
  apply ok_ind.
  - intros G x a S. now apply sim_decl.
  - intros G x t. apply sim_var. auto.
  - intros G x. apply sim_var. auto.
  - intros G l a OL NS K. now apply sim_set.
  - intros G x a IS S. now apply sim_setv.
  - intros G l x a b OL NS SA IS SB PB. now apply sim_set2.
  - intros G c b G' PU _ S. apply sim_if; auto. eapply sim_block; eauto.
  - intros G b G' _ S. apply flat. intros H e he fp fz e' r GD E N. rewrite exec_block in E. rewrite hexec_block. eapply sim_block; eauto.
  - intros G x bound b G' PU _ S. apply sim_for; auto. eapply sim_block; eauto.
  - intros G cs _ [A B]. now apply sim_switch.
  - intros G a b SA SB. now apply sim_return.
  - intros G H e he fp fz e' r GD E N. cbn [GoLang.execs GoMem.hexecs] in *. inversion E; subst. exists H, he, HNext, fp, []. conj.
  - intros G s b G1 G2 OS S1 _ S2 H e he fp fz e' r GD E N. rewrite execs_cons in E. destruct (exec types call n s e) as [e1 r1] eqn:E1.
    assert (N1 : normal r1) by (destruct r1; try exact I; inversion E; subst; contradiction).
    destruct (S1 _ _ _ _ _ _ _ GD E1 N1) as (H1 & he1 & hr1 & fp1 & d1 & A1 & W1 & GD1 & X1 & R1 & D1). rewrite hexecs_cons, A1.
    destruct r1; try contradiction; destruct hr1; try contradiction.
    + pose proof (D1 eq_refl) as DD. rewrite DD in GD1. destruct (S2 _ _ _ _ _ _ _ GD1 E N) as (H2 & he2 & hr2 & fp2 & d2 & A2 & W2 & GD2 & X2 & R2 & D2).
      rewrite <- DD, app_assoc in GD2. exists H2, he2, hr2, fp2, (d2 ++ d1). conj.
      * now apply Forall_app.
      * eapply ext_trans; eauto.
      * intros Q. rewrite <- (D2 Q), <- DD. now rewrite app_assoc.
    + inversion E; subst. exists H1, he1, (HRet v w), fp1, d1. conj. discriminate.
  - intros G l nm x err y ys b G' OL NS IX IE IY IYS AR _ S H e he fp fz e' r GD E N.
    rewrite execs_cons in E. destruct (exec types call n (SAssign l (ENew nm)) e) as [e1 r1] eqn:E1.
    assert (N1 : normal r1) by (destruct r1; try exact I; inversion E; subst; contradiction).
    assert (SR : exists fs, eval types e1 (lexpr l) = Ok (VStruct nm fs)).
    { cbn [GoLang.exec] in E1. apply lift_inv in E1 as (v & EV & E1); auto. apply lift_inv in E1 as (e1' & ST & E1); auto. inversion E1; subst.
      destruct (store_read types _ _ OL _ _ _ ST) as [ER _]. cbn [eval] in EV. destruct (alookup nm types); [|discriminate]. inversion EV; subst. eauto. }
    destruct (sim_set ro self pl wide types call hcall n G l (ENew nm) OL NS (or_intror eq_refl) _ _ _ _ _ _ _ GD E1 N1) as (H1 & he1 & hr1 & fp1 & d1 & A1 & _ & GD1 & X1 & R1 & D1).
    rewrite hexecs_cons, A1.
    assert (r1 = SNext) as ->.
    { cbn [GoLang.exec] in E1. apply lift_inv in E1 as (v & EV & E1); auto. apply lift_inv in E1 as (e1' & ST & E1); auto. inversion E1; auto. }
    destruct hr1; try contradiction. rewrite (D1 eq_refl) in GD1. clear D1 d1.
    rewrite execs_cons in E. destruct (exec types call n (SParse x err l (EVar y) (map EVar ys)) e1) as [e2 r2] eqn:E2.
    assert (N2 : normal r2) by (destruct r2; try exact I; inversion E; subst; contradiction).
    assert (AV : forall v, eval types e1 (lexpr l) = Ok v -> ariV ari v (List.length ys)).
    { destruct SR as [fs SR]. intros v Q. rewrite SR in Q. inversion Q. exact AR. }
    destruct (sim_parse ro self pl types call hcall n ari CR G x err l y ys OL IX IE IY IYS _ _ _ _ _ _ _ GD1 AV E2 N2) as (H2 & he2 & hr2 & fp2 & A2 & GD2 & X2 & R2).
    rewrite hexecs_cons, A2. destruct r2; try contradiction; destruct hr2; try contradiction.
    + destruct (S _ _ _ _ _ _ _ GD2 E N) as (H3 & he3 & hr3 & fp3 & d3 & A3 & W3 & GD3 & X3 & R3 & D3). exists H3, he3, hr3, fp3, d3. conj.
      eapply ext_trans; [eapply ext_trans; eauto|auto].
    + inversion E; subst. exists H2, he2, (HRet v w), fp2, []. conj; try discriminate. eapply ext_trans; eauto.
  - intros G g r f c x body d b G' RO RX PC OB SB ND NR _ S.
    apply (sim_fill ro self pl wide types call hcall n G g r f x c body d); auto.
    destruct (proj1 (proj2 (okS_ctx ari)) _ _ _ OB) as (d' & Q & W'). apply app_inv_tail in Q. now subst.
  - intros G. split; intros ? ? [].
  - intros G c b G' cs PU _ SB _ [A B]. split.
    + intros c0 b0 [Q|Q]; [inversion Q; now subst|eauto].
    + intros o b0 [Q|Q]; [inversion Q; subst; eapply sim_block; eauto|eauto].
  - intros G b G' cs _ SB _ [A B]. split.
    + intros c0 b0 [Q|Q]; [discriminate|eauto].
    + intros o b0 [Q|Q]; [inversion Q; subst; eapply sim_block; eauto|eauto].
Qed.
End Sim.

(** The number of contexts each method takes. *)
Definition arity (p : program) (ty : string) (k : nat) : Prop := forall f, alookup ty (pmethods p) = Some f -> k = List.length (fparams f).
Definition paramsC (xs : list string) : ctx := map (fun x => (x, KShr)) xs.
Definition methods_ok (p : program) : Prop := forall ty f, alookup ty (pmethods p) = Some f ->
  exists G', okB (arity p) ((frecv f, KSelf) :: ("data", KShr) :: paramsC (fparams f)) (fbody f) G'.

Lemma params_env : forall ro self H xs args hargs, Forall2 (shr ro H) args hargs -> List.length args = List.length xs ->
  envR ro self H (paramsC xs) (combine xs args) (combine xs hargs) [] [].
Proof.
  intros ro self H. induction xs as [|x xs IH]; intros args hargs F L; inversion F; subst; cbn in L; try discriminate; cbn [paramsC map combine]; [constructor|].
  apply envR_shr; auto.
Qed.

Theorem call_sim : forall p ro pl, word pl = 8 -> methods_ok p -> forall n, callR (arity p) ro (callMethod p n) (hcallMethod pl p n).
Proof.
  intros p ro pl wide MO. induction n as [|m IH]; intros H recv d args hrecv hd hargs fp0 recv' v w O ND RO IN SD SA AR C.
  - cbn [callMethod] in C. destruct recv; try (inversion C; fail). destruct (alookup ty (pmethods p)); inversion C.
  - cbn [callMethod] in C. destruct recv; try (inversion C; fail). destruct (alookup ty (pmethods p)) as [f|] eqn:LF; [|inversion C].
    destruct (own_struct_inv _ _ _ _ _ O) as (q & hfs & fp' & -> & -> & NQ & NM & OS).
    destruct (MO _ _ LF) as (G' & OB). set (G0 := (frecv f, KSelf) :: ("data", KShr) :: paramsC (fparams f)) in *.
    set (e0 := (frecv f, VStruct ty fs) :: ("data", d) :: combine (fparams f) args) in *.
    destruct (execs (ptypes p) (callMethod p m) m (fbody f) e0) as [e1 r1] eqn:EX.
    assert (r1 = SRet v w) as -> by congruence.
    assert (RV : recv' = match leave e0 e1 with (_, v) :: _ => v | [] => VNil end) by congruence. clear C.
    set (he0 := (frecv f, HPtr q) :: ("data", hd) :: combine (fparams f) hargs).
    assert (GD : good ro (HPtr q) H G0 e0 he0 ((q :: fp') ++ []) []).
    { constructor; auto.
      - apply envR_own; auto. apply envR_shr; auto. apply params_env; auto.
      - now rewrite app_nil_r.
      - intros l I. rewrite app_nil_r in I. auto. }
    destruct (proj1 (proj2 (sim_ok (arity p) ro (HPtr q) pl wide (ptypes p) _ _ m IH)) _ _ _ OB _ _ _ _ _ _ _ GD EX I)
      as (H1 & he1 & hr & fp1 & dd & HX & W & GD1 & X & R & _).
    destruct hr; try contradiction. destruct R as [SV SW].
    destruct (envR_length _ _ _ _ _ _ _ _ (g_env _ _ _ _ _ _ _ _ GD)) as [L1 L2].
    destruct (good_drop _ _ _ _ _ _ _ _ _ e0 he0 W GD1) as (fp2 & GD2 & SB); auto; try lia.
    cbn [hcallMethod]. rewrite NQ, LF. fold he0. rewrite HX. destruct GD2 as [ER2 ND2 RO2 IN2].
    assert (HD : exists v1 e2 fpa fpb, leave e0 e1 = (frecv f, v1) :: e2 /\ own H1 v1 (HPtr q) fpa /\ fp2 = fpa ++ fpb).
    { unfold G0 in ER2. inversion ER2 as [|?|? ? v1 hv1 fpa ? e2 he2 fpb ? K1 K2 K3 K4 K5 K6 K7 K8 K9|?]; subst; try discriminate.
      rewrite (K2 eq_refl) in K3. eauto 10. }
    destruct HD as (v1 & e2 & fpa & fpb & LV & OV & ->). rewrite LV in RV. subst recv'.
    exists H1, v0, w0, fpa. apply nodup_app in ND2 as (ND2 & _). split; auto. split; auto. split; auto.
    split. { intros l I. apply RO2, in_or_app; auto. }
    split; auto. rewrite app_nil_r in X. eapply ext_sub; [exact X|]. intros l I. apply SB, in_or_app; auto.
Qed.
End Old.
