(** Calls of methods by a goroutine. *)
From Coq Require Import ZArith String List Bool Lia ZifyBool ZifyNat Permutation.
From Verif Require Import Base GoLang GenSim GoMem MemSim MemPath MemExec MemStep MemFill MemCall GoConc ConcAlone ConcSafe ConcStep ConcExec ConcFill.
Import ListNotations.
Open Scope string_scope.
Open Scope list_scope.
Open Scope Z_scope.

Section Old.
Context {oldI : Old}.

Section Sim.
Variable ari : string -> nat -> Prop.
Variable ro : loc -> Prop.
Variable self : hval.
Variable pl : platform.
Hypothesis wide : word pl = 8.
Variable types : amap (list (string * gtype)).
Variable Post : list loc -> heap -> hres -> Prop.
Variable call : callfun.
Variable tcall : tcallfun.
Variable n : nat.
Hypothesis CR : callC ari ro pl types Post call tcall.
Notation simS := (ConcExec.simS ro self pl types Post call tcall n).
Notation simB := (ConcExec.simB ro self pl types Post call tcall n).
Notation simK := (ConcExec.simK ro self pl types Post call tcall n).

Theorem sim_ok :
  (forall G s G', MemExec.okS ari G s G' -> simS G s G') /\
  (forall G b G', okB ari G b G' -> simB G b G') /\
  (forall G cs, okC ari G cs -> (forall c b, In (Some c, b) cs -> pureE G c = true) /\ (forall o b, In (o, b) cs -> simK G b)).
Proof.
  apply ok_ind.
  - intros G x a S. now apply sim_decl.
  - intros G x t. apply sim_var. auto.
  - intros G x. apply sim_var. auto.
  - intros G l a OL NS K. now apply sim_set.
  - intros G x a IS S. now apply sim_setv.
  - intros G l x a b OL NS SA IS SB PB. now apply sim_set2.
  - intros G c b G' PU _ S. apply sim_if; auto. eapply sim_block; eauto.
  - intros G b G' _ S. apply flat. intros F H e he fp fz e' r k GD FR E N K. rewrite exec_block in E. rewrite texec_block. eapply sim_block; eauto.
  - intros G x bound b G' PU _ S. apply sim_for; auto. eapply sim_block; eauto.
  - intros G cs _ [A B]. now apply sim_switch.
  - intros G a b SA SB. now apply sim_return.
  - intros G tail F H e he fp fz e' r k GD FR E N K. cbn [GoLang.execs app] in *. inversion E; subst.
    apply (K H he HNext fp []); auto using later_refl; try exact I. constructor.
  - intros G s b G1 G2 OS S1 _ S2 tail F H e he fp fz e' r k GD FR E N K. rewrite execs_cons in E. destruct (exec types call n s e) as [e1 r1] eqn:E1.
    assert (N1 : normal r1) by (destruct r1; try exact I; inversion E; subst; contradiction).
    cbn [app]. rewrite texecs_cons. eapply S1; eauto. intros H1 he1 hr1 fp1 d1 W1 GD1 X1 R1 D1. pose proof (frame_later _ _ _ _ _ _ FR X1) as FR1.
    destruct r1; try contradiction; destruct hr1; try contradiction.
    + pose proof (D1 eq_refl) as DD. rewrite DD in GD1. eapply S2; eauto. intros H2 he2 hr2 fp2 d2 W2 GD2 X2 R2 D2.
      rewrite <- DD, app_assoc in GD2. apply (K H2 he2 hr2 fp2 (d2 ++ d1)); auto.
      * now apply Forall_app.
      * eapply later_trans; eauto.
      * intros Q. rewrite <- (D2 Q), <- DD. now rewrite app_assoc.
    + inversion E; subst. match goal with |- context [k he1 ?h] => apply (K H1 he1 h fp1 d1) end; auto. discriminate.
  - intros G l nm x err y ys b G' OL NS IX IE IY IYS AR _ S tail F H e he fp fz e' r k GD FR E N K.
    rewrite execs_cons in E. destruct (exec types call n (SAssign l (ENew nm)) e) as [e1 r1] eqn:E1.
    assert (N1 : normal r1) by (destruct r1; try exact I; inversion E; subst; contradiction).
    assert (SR : exists fs, eval types e1 (lexpr l) = Ok (VStruct nm fs)).
    { cbn [GoLang.exec] in E1. apply lift_inv in E1 as (v & EV & E1); auto. apply lift_inv in E1 as (e1' & ST & E1); auto. inversion E1; subst.
      destruct (store_read types _ _ OL _ _ _ ST) as [ER _]. cbn [eval] in EV. destruct (alookup nm types); [|discriminate]. inversion EV; subst. eauto. }
    cbn [app]. rewrite texecs_cons.
    eapply (sim_set ro self pl wide types Post call tcall n G l (ENew nm) OL NS (or_intror eq_refl)); eauto.
    intros H1 he1 hr1 fp1 d1 _ GD1 X1 R1 D1. pose proof (frame_later _ _ _ _ _ _ FR X1) as FR1.
    assert (r1 = SNext) as ->.
    { cbn [GoLang.exec] in E1. apply lift_inv in E1 as (v & EV & E1); auto. apply lift_inv in E1 as (e1' & ST & E1); auto. inversion E1; auto. }
    destruct hr1; try contradiction. rewrite (D1 eq_refl) in GD1. clear D1 d1.
    rewrite execs_cons in E. destruct (exec types call n (SParse x err l (EVar y) (map EVar ys)) e1) as [e2 r2] eqn:E2.
    assert (N2 : normal r2) by (destruct r2; try exact I; inversion E; subst; contradiction).
    assert (AV : forall v, eval types e1 (lexpr l) = Ok v -> ariV ari v (List.length ys)).
    { destruct SR as [fs SR]. intros v Q. rewrite SR in Q. inversion Q. exact AR. }
    rewrite texecs_cons.
    eapply (sim_parse ro self pl wide types Post call tcall n ari CR G x err l y ys OL IX IE IY IYS); eauto.
    intros H2 he2 hr2 fp2 GD2 X2 R2. pose proof (frame_later _ _ _ _ _ _ FR1 X2) as FR2. pose proof (later_trans _ _ _ _ _ _ _ _ X1 X2) as X12.
    destruct r2; try contradiction; destruct hr2; try contradiction.
    + eapply S; eauto. intros H3 he3 hr3 fp3 d3 W3 GD3 X3 R3 D3. apply (K H3 he3 hr3 fp3 d3); auto. eapply later_trans; eauto.
    + inversion E; subst. match goal with |- context [k he2 ?h] => apply (K H2 he2 h fp2 []) end; auto; try discriminate. constructor.
  - intros G g r f c x body d b G' RO RX PC OB SB ND NR _ S.
    apply (sim_fill ro self pl wide types Post call tcall n G g r f x c body d); auto.
    destruct (proj1 (proj2 (okS_ctx ari)) _ _ _ OB) as (d' & Q & W'). apply app_inv_tail in Q. now subst.
  - intros G. split; intros ? ? [].
  - intros G c b G' cs PU _ SB _ [A B]. split.
    + intros c0 b0 [Q|Q]; [inversion Q; now subst|eauto].
    + intros o b0 [Q|Q]; [inversion Q; subst; eapply sim_block; eauto|eauto].
  - intros G b G' cs _ SB _ [A B]. split.
    + intros c0 b0 [Q|Q]; [discriminate|eauto].
    + intros o b0 [Q|Q]; [inversion Q; subst; eapply sim_block; eauto|eauto].
Qed.
End Sim.

Theorem call_safe : forall p ro pl Post, word pl = 8 -> methods_ok p -> forall n, callC (arity p) ro pl (ptypes p) Post (callMethod p n) (tcallMethod p n).
Proof.
  intros p ro pl Post wide MO. induction n as [|m IH]; intros F H recv d args hrecv hd hargs fp0 recv' v w k O ND RO IN FR SD SA AR C K.
  - cbn [callMethod] in C. destruct recv; try (inversion C; fail). destruct (alookup ty (pmethods p)); inversion C.
  - cbn [callMethod] in C. destruct recv; try (inversion C; fail). destruct (alookup ty (pmethods p)) as [f|] eqn:LF; [|inversion C].
    destruct (own_struct_inv _ _ _ _ _ O) as (q & hfs & fp' & -> & -> & NQ & NM & OS).
    destruct (MO _ _ LF) as (G' & OB). set (G0 := (frecv f, KSelf) :: ("data", KShr) :: paramsC (fparams f)) in *.
    set (e0 := (frecv f, VStruct ty fs) :: ("data", d) :: combine (fparams f) args) in *.
    destruct (execs (ptypes p) (callMethod p m) m (fbody f) e0) as [e1 r1] eqn:EX.
    assert (r1 = SRet v w) as -> by congruence.
    assert (RV : recv' = match leave e0 e1 with (_, v) :: _ => v | [] => VNil end) by congruence. clear C.
    set (he0 := (frecv f, HPtr q) :: ("data", hd) :: combine (fparams f) hargs).
    cbn [tcallMethod]. intros H1 ST. pose proof ST as [STL STB].
    assert (NQ1 : nth_error H1 q = Some (OStruct ty hfs)) by (rewrite STB; [exact NQ|left; now left]).
    exists ty, hfs. split; [exact NQ1|]. rewrite LF. fold he0.
    assert (GD0 : good ro (HPtr q) H G0 e0 he0 ((q :: fp') ++ []) []).
    { constructor; auto.
      - apply envR_own; auto. apply envR_shr; auto. apply params_env; auto.
      - now rewrite app_nil_r.
      - intros l I. rewrite app_nil_r in I. auto. }
    rewrite app_nil_r in GD0. pose proof (good_stable _ _ _ _ _ _ _ _ _ _ GD0 ST) as GD. pose proof (frame_stable _ _ _ _ _ FR ST) as FR1.
    rewrite <- (app_nil_r (fbody f)).
    eapply (proj1 (proj2 (sim_ok (arity p) ro (HPtr q) pl wide (ptypes p) Post _ _ m IH)) _ _ _ OB); eauto; try exact I.
    intros H2 he2 hr fp2 dd W GD2 X R _. destruct hr; try contradiction. destruct R as [SV SW]. cbn [andThen].
    destruct (envR_length _ _ _ _ _ _ _ _ (g_env _ _ _ _ _ _ _ _ GD)) as [L1 L2].
    destruct (good_drop _ _ _ _ _ _ _ _ _ e0 he0 W GD2) as (fp3 & [ER3 ND3 RO3 IN3] & SB); auto; try lia.
    assert (HD : exists v1 e2 fpa fpb, leave e0 e1 = (frecv f, v1) :: e2 /\ own H2 v1 (HPtr q) fpa /\ fp3 = fpa ++ fpb).
    { unfold G0 in ER3. inversion ER3 as [|?|? ? v1 hv1 fpa ? e2 he3 fpb ? K1 K2 K3 K4 K5 K6 K7 K8 K9|?]; subst; try discriminate.
      rewrite (K2 eq_refl) in K3. eauto 10. }
    destruct HD as (v1 & e2 & fpa & fpb & LV & OV & ->). rewrite LV in RV. subst recv'.
    assert (SBa : forall l, In l fpa -> In l fp2) by (intros l I; apply SB, in_or_app; auto).
    apply safe_weaken with (M' := fpa ++ F). { intros l I. apply in_app_or in I as [I|I]; apply in_or_app; auto. }
    apply K; auto.
    + apply nodup_app in ND3. tauto.
    + intros l I. apply RO3, in_or_app; auto.
    + eapply later_trans; [apply stable_later; exact ST|]. eapply later_sub; eauto.
Qed.
End Old.
