(** Statements run by a goroutine: each of the forms that generated code has. *)
From Coq Require Import ZArith String List Bool Lia ZifyBool ZifyNat Permutation.
From Verif Require Import Base GoLang GenSim GoMem MemSim MemPath MemExec MemStep GoConc ConcAlone ConcSafe ConcStep.
Import ListNotations.
Open Scope string_scope.
Open Scope list_scope.
Open Scope Z_scope.

Section Old.
Context {oldI : Old}.

(** What a call must do: lead on to whatever comes after it. *)
Definition callC (ari : string -> nat -> Prop) (ro : loc -> Prop) (pl : platform) (types : amap (list (string * gtype))) (Post : list loc -> heap -> hres -> Prop)
  (call : callfun) (tcall : tcallfun) : Prop :=
  forall F H recv d args hrecv hd hargs fp0 recv' v w k,
    own H recv hrecv fp0 -> NoDup fp0 -> (forall l, In l fp0 -> ~ ro l) -> (forall l, ro l -> (l < List.length H)%nat) -> frame F fp0 H ->
    shr ro H d hd -> Forall2 (shr ro H) args hargs -> ariV ari recv (List.length args) -> call recv d args = (recv', SRet v w) ->
    (forall H' hv hw fp', own H' recv' hrecv fp' -> NoDup fp' -> (forall l, In l fp' -> ~ ro l) -> later ro F H fp0 H' fp' -> shr ro H' v hv -> shr ro H' w hw ->
       safe ro pl types Post (k (HRet hv hw)) (fp' ++ F) H') ->
    safe ro pl types Post (tcall hrecv hd hargs k) (fp0 ++ F) H.

Section Sim.
Variable ro : loc -> Prop.
Variable self : hval.
Variable pl : platform.
Hypothesis wide : word pl = 8.
Variable types : amap (list (string * gtype)).
Variable Post : list loc -> heap -> hres -> Prop.
Variable call : callfun.
Variable tcall : tcallfun.
Variable n : nat.
Variable ari : string -> nat -> Prop.
Hypothesis CR : callC ari ro pl types Post call tcall.
Notation envR := (envR ro self).
Notation good := (good ro self).
Notation eval := (eval types).
Notation store := (store types).
Notation exec := (exec types call n).
Notation execs := (execs types call n).
Notation heval := (heval pl types).
Notation hstore := (hstore pl types).
Notation safe := (safe ro pl types Post).
Notation later := (later ro).
Notation stable := (stable ro).
Notation texec := (texec tcall n).
Notation texecs := (texecs tcall n).
Notation tblock := (tblock tcall n).

(** What comes after a statement may rely on the variables being good. *)
Definition goesOn (F : list loc) (H : heap) (G : ctx) (fp : list loc) (fz : list (value * hval)) (G' : ctx) (e' : env) (r : sres) (k : henv -> hres -> thread) : Prop :=
  forall H' he' hr fp' d, warm d -> good H' (d ++ G) e' he' fp' fz -> later F H fp H' fp' -> resR ro H' r hr -> (r = SNext -> d ++ G = G') ->
    safe (k he' hr) (fp' ++ F) H'.
Definition goesOnK (F : list loc) (H : heap) (G : ctx) (fp : list loc) (fz : list (value * hval)) (e' : env) (r : sres) (k : henv -> hres -> thread) : Prop :=
  forall H' he' hr fp', good H' G e' he' fp' fz -> later F H fp H' fp' -> resR ro H' r hr -> safe (k he' hr) (fp' ++ F) H'.
Definition simS (G : ctx) (s : stmt) (G' : ctx) : Prop :=
  forall F H e he fp fz e' r k, good H G e he fp fz -> frame F fp H -> exec s e = (e', r) -> normal r -> goesOn F H G fp fz G' e' r k ->
    safe (texec s he k) (fp ++ F) H.
Definition andThen (tail : list stmt) (k : henv -> hres -> thread) (he : henv) (hr : hres) : thread :=
  match hr with HNext => texecs tail he k | _ => k he hr end.
Definition simB (G : ctx) (b : list stmt) (G' : ctx) : Prop :=
  forall tail F H e he fp fz e' r k, good H G e he fp fz -> frame F fp H -> execs b e = (e', r) -> normal r -> goesOn F H G fp fz G' e' r (andThen tail k) ->
    safe (texecs (b ++ tail) he k) (fp ++ F) H.
Definition simK (G : ctx) (b : list stmt) : Prop :=
  forall F H e he fp fz e' r k, good H G e he fp fz -> frame F fp H -> block types call n b e = (e', r) -> normal r -> goesOnK F H G fp fz e' r k ->
    safe (tblock b he k) (fp ++ F) H.

Lemma sim_block : forall G b G', simB G b G' -> simK G b.
Proof.
  intros G b G' S F H e he fp fz e' r k GD FR E N K. unfold block in E. destruct (execs b e) as [e1 r1] eqn:EB. inversion E; subst.
  unfold ConcAlone.tblock. rewrite <- (app_nil_r b). eapply S; eauto. intros H1 he1 hr fp1 d W GD1 X R _.
  destruct (envR_length _ _ _ _ _ _ _ _ (g_env _ _ _ _ _ _ _ _ GD)) as [L1 L2].
  destruct (good_drop _ _ _ _ _ _ _ _ _ e he W GD1) as (fp2 & GD2 & SB); auto; try lia.
  replace (andThen [] _ he1 hr) with (k (hleave he he1) hr) by (destruct hr; reflexivity).
  eapply safe_weaken; [|apply K; [exact GD2|eapply later_sub; eauto|exact R]].
  intros x I. apply in_app_or in I as [I|I]; apply in_or_app; auto.
Qed.

Lemma sim_decl : forall G x a, shrE G a = true -> simS G (SDecl x a) ((x, KShr) :: G).
Proof.
  intros G x a S F H e he fp fz e' r k GD FR E N K. cbn [GoLang.exec] in E. apply lift_inv in E as (v & EV & E); auto. inversion E; subst.
  cbn [GoConc.texec]. eapply step_shr; eauto. intros H1 hv ST1 GD1 SH. pose proof (stable_later _ _ _ _ _ ST1) as X.
  apply (K H1 ((x, hv) :: he) HNext fp [(x, KShr)]); auto; try exact I.
  - repeat constructor; discriminate.
  - destruct GD1 as [ER ND RO IN]. constructor; auto. apply envR_shr; auto.
Qed.
Lemma sim_var : forall G x t k, k = KMine \/ k = KShr /\ t = GError -> simS G (SVar x t) ((x, k) :: G).
Proof.
  intros G x t k KK F H e he fp fz e' r kk GD FR E N K. cbn [GoLang.exec] in E. inversion E; subst. destruct GD as [ER ND RO IN].
  cbn [GoConc.texec]. apply (K H ((x, hzero t) :: he) HNext fp [(x, k)]); auto using later_refl; try exact I.
  - repeat constructor. destruct KK as [->|[-> _]]; discriminate.
  - constructor; auto. destruct KK as [->|[-> ->]]; [|apply envR_shr; auto; constructor].
    change fp with ([] ++ fp). apply envR_own; auto; [discriminate|]. apply zero_own.
Qed.
Lemma flat : forall G s, (forall F H e he fp fz e' r k, good H G e he fp fz -> frame F fp H -> exec s e = (e', r) -> normal r ->
  goesOnK F H G fp fz e' r k -> safe (texec s he k) (fp ++ F) H) -> simS G s G.
Proof.
  intros G s A F H e he fp fz e' r k GD FR E N K. eapply A; eauto. intros H1 he1 hr fp1 GD1 X R. apply (K H1 he1 hr fp1 []); auto. constructor.
Qed.
Lemma sim_set : forall G l a, okL G l = true -> selfVar G l = false -> scalarE G a = true \/ freshE G a = true -> simS G (SAssign l a) G.
Proof.
  intros G l a OL NS C. apply flat. intros F H e he fp fz e' r k GD FR E N K. cbn [GoLang.exec] in E. apply lift_inv in E as (v & EV & E); auto.
  apply lift_inv in E as (e1 & ST & E); auto. inversion E; subst.
  cbn [GoConc.texec]. eapply step_own; eauto. intros H1 hv fp1 ST1 GD1 O ND D _. pose proof (stable_later _ _ _ _ _ ST1) as X.
  eapply step_set; eauto. { eapply frame_later; eauto. } { intros x I. destruct (D _ I) as (_ & A). exact A. }
  intros H2 he1 fp' GD2 X2 _. apply K; auto; try exact I. eapply later_new; eauto. intros x I. now destruct (D _ I).
Qed.
Lemma sim_setv : forall G x a, isShr G x = true -> shrE G a = true -> simS G (SAssign (LVar x) a) G.
Proof.
  intros G x a IS S. apply flat. intros F H e he fp fz e' r k GD FR E N K. cbn [GoLang.exec] in E. apply lift_inv in E as (v & EV & E); auto.
  apply lift_inv in E as (e1 & ST & E); auto. inversion E; subst.
  cbn [GoConc.texec]. eapply step_shr; eauto. intros H1 hv ST1 GD1 SH. pose proof (stable_later _ _ _ _ _ ST1) as X. eapply step_setv; eauto. intros H2 he1 STB GD2. apply K; auto; try exact I.
  eapply later_trans; eauto. now apply stable_later.
Qed.
Lemma sim_set2 : forall G l x a b, okL G l = true -> selfVar G l = false -> scalarE G a = true -> isShr G x = true -> shrE G b = true ->
  pureE G b = true -> simS G (SAssign2 l (LVar x) a b) G.
Proof.
  intros G l x a b OL NS SA IS SB PB. apply flat. intros F H e he fp fz e' r k GD FR E N K. cbn [GoLang.exec] in E. apply lift_inv in E as (v & EV & E); auto.
  apply lift_inv in E as (w & EW & E); auto. apply lift_inv in E as (e1 & ST & E); auto. apply lift_inv in E as (e2 & ST2 & E); auto. inversion E; subst.
  cbn [GoConc.texec]. unfold scalarE in SA. pose proof SA as SA'. apply andb_true_iff in SA as [PA _].
  eapply step_pure; eauto. intros H1 hv S1 GD1 HV _. eapply step_shr; eauto. { eapply frame_stable; eauto. }
  intros H2 hw ST2' GD2 SH. pose proof (stable_later _ _ _ _ _ ST2') as X2. pose proof (frame_later _ _ _ _ _ _ (frame_stable _ _ _ _ _ FR S1) X2) as FR2.
  assert (O : own H2 v hv []).
  { destruct (scalar_sim ro self pl wide types _ _ _ _ _ _ _ _ (g_env _ _ _ _ _ _ _ _ GD1) SA' EV) as (hv' & HV' & O). rewrite HV in HV'. inversion HV'; subst.
    eapply own_agree; eauto. intros y []. }
  change (fp ++ F) with ([] ++ fp ++ F). eapply step_set; eauto. { constructor. } { intros y []. }
  intros H3 he1 fp' GD3 X3 _. cbn [app] in X3.
  assert (SH3 : shr ro H3 w hw). { eapply shr_agree; eauto. intros y R. destruct X3 as (_ & B & _). auto. }
  eapply step_setv; eauto. intros H4 he2 S4 GD4. apply K; auto; try exact I.
  eapply later_trans; [apply stable_later; eauto|]. eapply later_trans; [eauto|]. eapply later_trans; [eauto|]. now apply stable_later.
Qed.

Lemma sim_if : forall G c b, pureE G c = true -> simK G b -> simS G (SIf c b) G.
Proof.
  intros G c b PU KB. apply flat. intros F H e he fp fz e' r k GD FR E N K. rewrite exec_if in E. apply lift_inv in E as (v & EV & E); auto.
  destruct v as [| | | | | | |b0]; try (inversion E; subst; contradiction). rewrite texec_if. eapply step_cond; eauto. intros H1 ST GD1.
  pose proof (stable_later _ _ _ _ _ ST) as X1. destruct b0.
  - eapply KB; eauto. { eapply frame_stable; eauto. } intros H2 he2 hr fp2 GD2 X2 R. apply K; auto. eapply later_trans; eauto.
  - inversion E; subst. apply K; auto; try exact I.
Qed.

Lemma sim_switch : forall G cs, (forall c b, In (Some c, b) cs -> pureE G c = true) -> (forall o b, In (o, b) cs -> simK G b) -> simS G (SSwitch cs) G.
Proof.
  intros G cs PU KB. apply flat. intros F H e he fp fz e' r k GD FR E N K. rewrite exec_switch in E. rewrite texec_switch.
  assert (D : forall cs1 H1, stable (fp ++ F) H H1 -> (forall o b, In (o, b) cs1 -> simK G b) -> swDefault types call n e cs1 = (e', r) ->
    safe (tswDefault tcall n he k cs1) (fp ++ F) H1).
  { induction cs1 as [|[[c|] b] cs1 IH]; intros H1 ST K1 E1; cbn [swDefault tswDefault] in *.
    - inversion E1; subst. apply K; try exact I. + eapply good_stable; eauto. + now apply stable_later.
    - apply IH; auto. intros o b0 I0. apply (K1 o b0). now right.
    - eapply (K1 None b (or_introl eq_refl)); eauto. { eapply good_stable; eauto. } { eapply frame_stable; eauto. }
      intros H2 he2 hr fp2 GD2 X2 R. apply K; auto. eapply later_trans; eauto. now apply stable_later. }
  assert (P : forall cs1 H1, stable (fp ++ F) H H1 -> (forall c b, In (Some c, b) cs1 -> pureE G c = true) -> (forall o b, In (o, b) cs1 -> simK G b) ->
    swPick types call n e cs cs1 = (e', r) -> safe (tswPick tcall n he k cs cs1) (fp ++ F) H1).
  { induction cs1 as [|[[c|] b] cs1 IH]; intros H1 ST P1 K1 E1; cbn [swPick tswPick] in *; auto.
    - apply lift_inv in E1 as (v & EV & E1); auto. pose proof (P1 c b (or_introl eq_refl)) as PC.
      destruct v as [| | | | | | |b0]; try (inversion E1; subst; contradiction).
      eapply step_cond; eauto. { eapply good_stable; eauto. } intros H2 ST2 GD2. pose proof (stable_trans ro _ _ _ _ ST ST2) as ST3. destruct b0.
      + eapply (K1 _ b (or_introl eq_refl)); eauto. { eapply frame_stable; eauto. }
        intros H4 he2 hr fp2 GD4 X4 R. apply K; auto. eapply later_trans; eauto. now apply stable_later.
      + apply IH; auto; intros; [eapply P1|eapply K1]; right; eauto.
    - apply IH; auto; intros; [eapply P1|eapply K1]; right; eauto. }
  apply P; auto. apply stable_refl.
Qed.

Lemma sim_for : forall G x bound b, pureE ((x, KShr) :: G) bound = true -> simK ((x, KShr) :: G) b -> simS G (SForLt x bound b) G.
Proof.
  intros G x bound b PU KB. apply flat. intros F H e he fp fz e' r k GD FR E N K. rewrite exec_for in E. rewrite texec_for.
  set (G1 := (x, KShr) :: G) in *.
  assert (IS : isShr G1 x = true) by (unfold isShr, G1; cbn [alookup]; now rewrite String.eqb_refl).
  assert (PC : pureE G1 (EBin BLt (EVar x) bound) = true) by (cbn [pureE]; now rewrite IS, orb_true_r, PU).
  assert (PA : pureE G1 (EBin BAdd (EVar x) (EInt 1)) = true) by (cbn [pureE]; now rewrite IS, orb_true_r).
  assert (L : forall m H e he fp e1 r k, good H G1 e he fp fz -> frame F fp H -> forLoop types call n x bound b m e = (e1, r) -> normal r ->
    goesOnK F H G1 fp fz e1 r k -> safe (tforLoop tcall n x bound b m he k) (fp ++ F) H).
  { clear H e he fp e' r k GD FR E N K. induction m as [|m IH]; intros H e he fp e1 r k GD FR E N K; cbn [forLoop tforLoop] in *.
    - apply lift_inv in E as (v & EV & E); auto. destruct v as [| | | | | | |[]]; try (inversion E; subst; contradiction).
      eapply step_cond; eauto. intros H1 ST GD1. inversion E; subst. apply K; auto; try exact I. now apply stable_later.
    - apply lift_inv in E as (v & EV & E); auto. destruct v as [| | | | | | |b0]; try (inversion E; subst; contradiction).
      eapply step_cond; eauto. intros H1 ST GD1. pose proof (stable_later _ _ _ _ _ ST) as X1. pose proof (frame_stable _ _ _ _ _ FR ST) as FR1. destruct b0.
      + destruct (block types call n b e) as [e2 r2] eqn:EB.
        assert (N2 : normal r2) by (destruct r2; try exact I; inversion E; subst; contradiction).
        eapply KB; eauto. intros H2 he2 hr2 fp2 GD2 X2 R2. pose proof (frame_later _ _ _ _ _ _ FR1 X2) as FR2.
        destruct r2; try contradiction; destruct hr2; try contradiction.
        * apply lift_inv in E as (w & EW & E); auto.
          assert (Z : exists z, w = VInt z).
          { cbn [GoLang.eval] in EW. destruct (alookup x e2) as [u|]; [|discriminate]. cbn [bind] in EW. destruct u; try discriminate. inversion EW. eauto. }
          destruct Z as [z ->]. eapply step_pure; eauto. intros H3 hw S3 GD3 HW B. apply brw_int in B. subst hw.
          pose proof (stable_later _ _ _ _ _ S3) as X3.
          eapply (IH H3 (assign x (VInt z) e2) (hassign x (HInt z) he2) fp2 e1 r); auto.
          { destruct GD3 as [ER2 ND2 RO2 IN2]. constructor; auto. apply assign_shr; auto; [now apply shr_is|constructor]. }
          { eapply frame_stable; eauto. }
          intros H4 he4 hr4 fp4 GD4 X4 R4. apply K; auto. eapply later_trans; [exact X1|]. eapply later_trans; [exact X2|]. eapply later_trans; eauto.
        * inversion E; subst. apply K; auto. eapply later_trans; eauto.
      + inversion E; subst. apply K; auto; try exact I. }
  destruct (forLoop types call n x bound b n ((x, VInt 0) :: e)) as [e1 r1] eqn:EF. inversion E; subst. pose proof GD as [ER ND RO IN].
  eapply (L n H ((x, VInt 0) :: e) ((x, HInt 0) :: he) fp e1 r); auto.
  { constructor; auto. apply envR_shr; auto. constructor. }
  intros H1 he1 hr fp1 GD1 X1 R1. destruct (envR_length _ _ _ _ _ _ _ _ ER) as [L1 L2].
  assert (WM : warm [(x, KShr)]) by (repeat constructor; discriminate).
  destruct (good_drop ro self [(x, KShr)] H1 G e1 he1 fp1 fz e he WM GD1) as (fp2 & GD2 & SB); try lia.
  eapply safe_weaken; [|apply K; [exact GD2|eapply later_sub; eauto|exact R1]].
  intros y I. apply in_app_or in I as [I|I]; apply in_or_app; auto.
Qed.

Lemma sim_return : forall G a b, shrE G a = true -> shrE G b = true -> simS G (SReturn a b) G.
Proof.
  intros G a b SA SB. apply flat. intros F H e he fp fz e' r k GD FR E N K. cbn [GoLang.exec] in E. apply lift_inv in E as (v & EV & E); auto.
  apply lift_inv in E as (w & EW & E); auto. inversion E; subst. cbn [GoConc.texec].
  eapply step_shr; eauto. intros H1 hv ST1 GD1 S1. pose proof (stable_later _ _ _ _ _ ST1) as X1. eapply step_shr; eauto. { eapply frame_later; eauto. } intros H2 hw ST2 GD2 S2. pose proof (stable_later _ _ _ _ _ ST2) as X2.
  apply K; auto. { eapply later_trans; eauto. } split; auto. eapply shr_agree; eauto. intros y R. destruct X2 as (_ & B & _). auto.
Qed.

Lemma sim_parse : forall G x err o y ys, okL G o = true -> isShr G x = true -> isShr G err = true -> isShr G y = true -> forallb (isShr G) ys = true ->
  forall F H e he fp fz e' r k, good H G e he fp fz -> frame F fp H -> (forall v, eval e (lexpr o) = Ok v -> ariV ari v (List.length ys)) ->
  exec (SParse x err o (EVar y) (map EVar ys)) e = (e', r) -> normal r -> goesOnK F H G fp fz e' r k ->
  safe (texec (SParse x err o (EVar y) (map EVar ys)) he k) (fp ++ F) H.
Proof.
  intros G x err o y ys OL IX IE IY IYS F H e he fp fz e' r k GD FR AR E N K. cbn [GoLang.exec] in E.
  apply lift_inv in E as (recv & EO & E); auto. apply lift_inv in E as (dv & ED & E); auto. apply lift_inv in E as (vs & EA & E); auto.
  destruct (call recv dv vs) as [recv' rc] eqn:C. destruct rc; try (inversion E; subst; contradiction).
  apply lift_inv in E as (e1 & S1 & E); auto. apply lift_inv in E as (e2 & S2 & E); auto. apply lift_inv in E as (e3 & S3 & E); auto. inversion E; subst.
  cbn [GoConc.texec].
  eapply (step_pure ro self pl wide types Post); [exact GD|now apply okL_pure|exact EO|]. intros H1 hv0 ST1 GD1 HO _.
  pose proof (frame_stable _ _ _ _ _ FR ST1) as FR1. pose proof (stable_later _ _ _ _ _ ST1) as X1.
  pose proof GD1 as [ER ND RO IN].
  destruct (path ro self pl types G o OL _ _ _ _ _ _ ER ND RO EO) as (hv0' & fp0 & rest & O0 & P & EV0 & PK).
  assert (hv0' = hv0) as -> by (assert (Q : heval H1 he (lexpr o) = Ok (hv0', H1)) by (apply EV0; now intros l _); congruence).
  eapply (step_shr ro self pl wide types Post); [exact GD1|exact FR1|exact IY|exact ED|]. intros H2 hd ST2 GD2 SD.
  pose proof (frame_stable _ _ _ _ _ FR1 ST2) as FR2.
  eapply (step_args ro self pl wide types Post); [exact IYS|exact EA|exact GD2|]. intros H3 hvs ST3 GD3 FA.
  pose proof (frame_stable _ _ _ _ _ FR2 ST3) as FR3. pose proof (stable_trans ro _ _ _ _ ST2 ST3) as ST13.
  pose proof (Permutation_NoDup P ND) as ND'. destruct (nodup_app _ _ ND') as (ND0 & NDr & DJ).
  pose proof (g_in _ _ _ _ _ _ _ _ GD3) as IN3.
  assert (BD : forall l, In l fp -> (l < List.length H3)%nat) by (apply (envR_bound _ _ _ _ _ _ _ _ (g_env _ _ _ _ _ _ _ _ GD3))).
  assert (I0 : forall l, In l fp0 -> In l fp) by (intros l I; rewrite P; apply in_or_app; auto).
  assert (Ir : forall l, In l rest -> In l fp) by (intros l I; rewrite P; apply in_or_app; auto).
  apply safe_weaken with (M' := fp0 ++ (rest ++ F)).
  { intros l I. apply in_app_or in I as [I|I]; [apply in_or_app; auto|]. apply in_app_or in I as [I|I]; apply in_or_app; auto. }
  eapply CR with (recv := recv) (d := dv) (args := vs); eauto.
  { eapply own_agree; eauto. intros l I. destruct ST13 as [_ B]. apply B. left. apply in_or_app. auto. }
  { intros l I. apply in_app_or in I as [I|I]; [split; [auto|intros J; eapply DJ; eauto]|]. destruct (FR3 _ I) as [A B]. split; auto. }
  { eapply shr_agree; eauto. intros l R. destruct ST3 as [_ B]. auto. }
  { rewrite (mapM_length _ _ _ EA), map_length. auto. }
  intros H4 hv hw fp4 O4 ND4 RO4 X4 SV SW. destruct X4 as (X4 & X5 & X6).
  assert (AGr : agree (fun l => In l rest) H1 H4).
  { intros l I. rewrite X5 by (left; apply in_or_app; auto). destruct ST13 as [_ B]. apply B. left. apply in_or_app. auto. }
  assert (AGo : agree ro H1 H4). { intros l I. rewrite X5 by auto. destruct ST13 as [_ B]. auto. }
  assert (DJ4 : forall l, In l fp4 -> ~ In l rest).
  { intros l I J. destruct (X6 _ I) as [I'|I']; [eapply DJ; eauto|]. specialize (BD _ (Ir _ J)). lia. }
  destruct (PK H4 recv' hv0 fp4 e1) as (H4' & he1 & fp' & HS & E1 & P1 & _ & _ & Same); auto.
  destruct (Same eq_refl) as [-> ->]. clear Same HS.
  assert (GD4 : good H4 G e1 he fp' fz).
  { constructor; auto.
    - apply (Permutation_NoDup (Permutation_sym P1)). apply nodup_join; auto.
    - intros l I R. apply (perm_in _ _ _ P1) in I. apply in_app_or in I as [I|I]; [eapply RO4; eauto|]. apply (RO l); auto.
    - intros l R. specialize (IN3 _ R). lia. }
  assert (X14 : later F H3 fp H4 fp').
  { split; [exact X4|]. split.
    - intros l I. apply X5. destruct I; auto. left. apply in_or_app. auto.
    - intros l I. apply (perm_in _ _ _ P1) in I. apply in_app_or in I as [I|I]; auto. destruct (X6 _ I); auto. }
  apply safe_weaken with (M' := fp' ++ F).
  { intros l I. apply in_app_or in I as [I|I]; [apply (perm_in _ _ _ P1) in I; apply in_app_or in I as [I|I]|]; apply in_or_app; auto; right; apply in_or_app; auto. }
  eapply step_setv; [exact GD4|exact IX|exact SV|exact S2|]. intros H5 he2 ST5 GD5.
  assert (SW5 : shr ro H5 v2 hw). { eapply shr_agree; eauto. intros l R. destruct ST5 as [_ B]. auto. }
  eapply step_setv; [exact GD5|exact IE|exact SW5|exact S3|]. intros H6 he3 ST6 GD6.
  apply K; auto; try exact I.
  eapply later_trans; [exact X1|]. eapply later_trans; [apply stable_later; exact ST13|]. eapply later_trans; [exact X14|].
  eapply later_trans; apply stable_later; eauto.
Qed.
End Sim.
End Old.
