(** The simulation of statements and calls. *)
From Coq Require Import ZArith String List Bool Lia ZifyBool ZifyNat Permutation.
From Verif Require Import Base GoLang GenSim GoMem MemSim MemPath MemExec.
Import ListNotations.
Open Scope string_scope.
Open Scope list_scope.
Open Scope Z_scope.

Ltac conj := repeat match goal with |- _ /\ _ => split end; auto using ext_refl, ext_app; try exact I; try (constructor; fail).

Section Old.
Context {oldI : Old}.

Definition normal (r : sres) : Prop := match r with SNext | SRet _ _ => True | _ => False end.
Definition resR (ro : loc -> Prop) (H : heap) (r : sres) (hr : hres) : Prop :=
  match r, hr with
  | SNext, HNext => True
  | SRet v w, HRet hv hw => shr ro H v hv /\ shr ro H w hw
  | _, _ => False
  end.

(** What a call must do. *)
Definition ariV (ari : string -> nat -> Prop) (recv : value) (k : nat) : Prop := match recv with VStruct ty _ => ari ty k | _ => True end.
Definition callR (ari : string -> nat -> Prop) (ro : loc -> Prop) (call : callfun) (hcall : hcallfun) : Prop :=
  forall H recv d args hrecv hd hargs fp0 recv' v w,
    own H recv hrecv fp0 -> NoDup fp0 -> (forall l, In l fp0 -> ~ ro l) -> (forall l, ro l -> (l < List.length H)%nat) ->
    shr ro H d hd -> Forall2 (shr ro H) args hargs -> ariV ari recv (List.length args) -> call recv d args = (recv', SRet v w) ->
    exists H' hv hw fp', hcall H hrecv hd hargs = (H', HRet hv hw) /\ own H' recv' hrecv fp' /\ NoDup fp' /\
      (forall l, In l fp' -> ~ ro l) /\ ext H fp0 H' fp' /\ shr ro H' v hv /\ shr ro H' w hw.

Lemma okS_ctx : forall ari, (forall G s G', okS ari G s G' -> exists d, G' = d ++ G /\ warm d) /\
  (forall G b G', okB ari G b G' -> exists d, G' = d ++ G /\ warm d) /\ (forall G cs, okC ari G cs -> True).
Proof.
  intros ari.
  assert (one : forall x k (G : ctx), k <> KFrozen -> exists d, (x, k) :: G = d ++ G /\ warm d).
  { intros x k G N. exists [(x, k)]. split; auto. repeat constructor; auto. }
  assert (no : forall (G : ctx), exists d, G = d ++ G /\ warm d) by (intros G; exists []; split; auto; constructor).
  apply ok_ind; intros; auto; try (apply one; discriminate).
  destruct H0 as (d1 & -> & W1), H2 as (d2 & -> & W2). exists (d2 ++ d1). rewrite app_assoc. split; auto. now apply Forall_app.
Qed.

Section Sim.
Variable ro : loc -> Prop.
Variable self : hval.
Variable pl : platform.
Hypothesis wide : word pl = 8.
Variable types : amap (list (string * gtype)).
Variable call : callfun.
Variable hcall : hcallfun.
Variable n : nat.
Variable ari : string -> nat -> Prop.
Hypothesis CR : callR ari ro call hcall.
Notation envR := (envR ro self).
Notation good := (good ro self).
Notation eval := (eval types).
Notation exec := (exec types call n).
Notation execs := (execs types call n).
Notation heval := (heval pl types).
Notation hstore := (hstore pl types).
Notation hexec := (hexec pl types hcall n).
Notation hexecs := (hexecs pl types hcall n).

Definition simS (G : ctx) (s : stmt) (G' : ctx) : Prop :=
  forall H e he fp fz e' r, good H G e he fp fz -> exec s e = (e', r) -> normal r ->
  exists H' he' hr fp' d, hexec s H he = (H', he', hr) /\ warm d /\ good H' (d ++ G) e' he' fp' fz /\ ext H fp H' fp' /\ resR ro H' r hr /\
    (r = SNext -> d ++ G = G').
Definition simB (G : ctx) (b : list stmt) (G' : ctx) : Prop :=
  forall H e he fp fz e' r, good H G e he fp fz -> execs b e = (e', r) -> normal r ->
  exists H' he' hr fp' d, hexecs b H he = (H', he', hr) /\ warm d /\ good H' (d ++ G) e' he' fp' fz /\ ext H fp H' fp' /\ resR ro H' r hr /\
    (r = SNext -> d ++ G = G').
Definition simK (G : ctx) (b : list stmt) : Prop :=
  forall H e he fp fz e' r, good H G e he fp fz -> block types call n b e = (e', r) -> normal r ->
  exists H' he' hr fp', hblock pl types hcall n b H he = (H', he', hr) /\ good H' G e' he' fp' fz /\ ext H fp H' fp' /\ resR ro H' r hr.

Lemma sim_block : forall G b G', simB G b G' -> simK G b.
Proof.
  intros G b G' S H e he fp fz e' r GD E N. unfold block in E. destruct (execs b e) as [e1 r1] eqn:EB. inversion E; subst.
  destruct (S _ _ _ _ _ _ _ GD EB N) as (H1 & he1 & hr & fp1 & d & HB & W & GD1 & X & R & _).
  destruct (envR_length _ _ _ _ _ _ _ _ (g_env _ _ _ _ _ _ _ _ GD)) as [L1 L2].
  destruct (good_drop _ _ _ _ _ _ _ _ _ e he W GD1) as (fp2 & GD2 & SB); auto; try lia.
  exists H1, (hleave he he1), hr, fp2. unfold hblock. rewrite HB. conj. eapply ext_sub; eauto.
Qed.

Lemma lift_inv : forall {A} e (x : outcome A) k e' r, lift e x k = (e', r) -> normal r -> exists a, x = Ok a /\ k a = (e', r).
Proof. intros A e x k e' r E N. destruct x; cbn [lift] in E; [eauto| | |]; inversion E; subst; destruct N. Qed.

Lemma resR_ext : forall H G e he fp fz H' fp' v hv, good H G e he fp fz -> ext H fp H' fp' -> shr ro H v hv -> shr ro H' v hv.
Proof. intros. eapply shr_agree; eauto. eapply ext_agree_ro; eauto. Qed.

(** Assign to a shared variable. *)
Lemma setv : forall H G e he fp fz x v hv, good H G e he fp fz -> isShr G x = true -> shr ro H v hv ->
  exists he1, (forall e1, store types e (LVar x) v = Ok e1 -> hstore H he (LVar x) hv = Ok (H, he1) /\ good H G e1 he1 fp fz).
Proof.
  intros H G e he fp fz x v hv GD I S. exists (hassign x hv he). intros e1 ST. cbn [store GoMem.hstore] in *.
  destruct (alookup x e) as [w|] eqn:L; [|discriminate]. apply shr_is in I. destruct GD as [ER ND RO IN].
  destruct (lookup_shr _ _ _ _ _ _ _ _ ER _ _ I L) as (hw & LH & _). rewrite LH. split; auto. inversion ST; subst.
  constructor; auto. apply assign_shr; auto.
Qed.

Lemma sim_decl : forall G x a, shrE G a = true -> simS G (SDecl x a) ((x, KShr) :: G).
Proof.
  intros G x a S H e he fp fz e' r GD E N. cbn [GoLang.exec] in E. apply lift_inv in E as (v & EV & E); auto. inversion E; subst.
  destruct (shr_sim ro self pl wide types _ _ _ _ _ _ _ _ (g_env _ _ _ _ _ _ _ _ GD) S EV) as (hv & d & HV & SH & _).
  exists (H ++ d), ((x, hv) :: he), HNext, fp, [(x, KShr)]. split. { cbn [GoMem.hexec]. rewrite HV. reflexivity. }
  split. { repeat constructor; discriminate. }
  split. { destruct (good_app _ _ _ d _ _ _ _ _ GD) as [ER ND RO IN]. constructor; auto. apply envR_shr; auto. }
  conj.
Qed.
Lemma sim_var : forall G x t k, k = KMine \/ k = KShr /\ t = GError -> simS G (SVar x t) ((x, k) :: G).
Proof.
  intros G x t k K H e he fp fz e' r GD E N. cbn [GoLang.exec] in E. inversion E; subst. destruct GD as [ER ND RO IN].
  exists H, ((x, hzero t) :: he), HNext, fp, [(x, k)]. split; [reflexivity|].
  split. { repeat constructor. destruct K as [->|[-> _]]; discriminate. }
  split.
  { constructor; auto. destruct K as [->|[-> ->]]; [|apply envR_shr; auto; constructor].
    change fp with ([] ++ fp). apply envR_own; auto; [discriminate|]. apply zero_own. }
  conj.
Qed.
Lemma sim_set : forall G l a, okL G l = true -> selfVar G l = false -> scalarE G a = true \/ freshE G a = true -> simS G (SAssign l a) G.
Proof.
  intros G l a OL NS K H e he fp fz e' r GD E N. cbn [GoLang.exec] in E. apply lift_inv in E as (v & EV & E); auto.
  apply lift_inv in E as (e1 & ST & E); auto. inversion E; subst.
  assert (X : exists hv d fp1, heval H he a = Ok (hv, H ++ d) /\ own (H ++ d) v hv fp1 /\ NoDup fp1 /\ (forall l, In l fp1 -> (List.length H <= l)%nat)).
  { destruct K as [K|K].
    - destruct (scalar_sim ro self pl wide types _ _ _ _ _ _ _ _ (g_env _ _ _ _ _ _ _ _ GD) K EV) as (hv & HV & O).
      exists hv, [], []. rewrite app_nil_r. split; auto. split; auto. split; [constructor|]. intros l0 [].
    - eapply fresh_sim; eauto. apply (g_env _ _ _ _ _ _ _ _ GD). }
  destruct X as (hv & d & fp1 & HV & O & ND & FR).
  destruct (set_path _ _ pl types _ _ _ _ _ _ _ _ _ _ _ _ GD OL NS O ND FR ST) as (H2 & he1 & fp' & HS & GD' & X).
  exists H2, he1, HNext, fp', []. split. { cbn [GoMem.hexec]. rewrite HV. cbn [hlift]. rewrite HS. reflexivity. }
  conj.
Qed.
Lemma sim_setv : forall G x a, isShr G x = true -> shrE G a = true -> simS G (SAssign (LVar x) a) G.
Proof.
  intros G x a IS S H e he fp fz e' r GD E N. cbn [GoLang.exec] in E. apply lift_inv in E as (v & EV & E); auto.
  apply lift_inv in E as (e1 & ST & E); auto. inversion E; subst.
  destruct (shr_sim ro self pl wide types _ _ _ _ _ _ _ _ (g_env _ _ _ _ _ _ _ _ GD) S EV) as (hv & d & HV & SH & _).
  destruct (setv (H ++ d) G e he fp fz x v hv) as (he1 & K); auto. { now apply good_app. }
  destruct (K _ ST) as [HS GD']. exists (H ++ d), he1, HNext, fp, [].
  split. { cbn [GoMem.hexec]. rewrite HV. cbn [hlift]. rewrite HS. reflexivity. }
  conj.
Qed.
Lemma sim_set2 : forall G l x a b, okL G l = true -> selfVar G l = false -> scalarE G a = true -> isShr G x = true -> shrE G b = true ->
  pureE G b = true -> simS G (SAssign2 l (LVar x) a b) G.
Proof.
  intros G l x a b OL NS SA IS SB PB H e he fp fz e' r GD E N. cbn [GoLang.exec] in E. apply lift_inv in E as (v & EV & E); auto.
  apply lift_inv in E as (w & EW & E); auto. apply lift_inv in E as (e1 & ST & E); auto. apply lift_inv in E as (e2 & ST2 & E); auto. inversion E; subst.
  destruct (scalar_sim ro self pl wide types _ _ _ _ _ _ _ _ (g_env _ _ _ _ _ _ _ _ GD) SA EV) as (hv & HV & O).
  destruct (shr_sim ro self pl wide types _ _ _ _ _ _ _ _ (g_env _ _ _ _ _ _ _ _ GD) SB EW) as (hw & d & HW & SH & DN).
  rewrite (DN PB), app_nil_r in *. clear DN.
  assert (O' : own (H ++ []) v hv []) by now rewrite app_nil_r.
  assert (FR : forall l0 : loc, In l0 [] -> (List.length H <= l0)%nat) by (intros l0 []).
  destruct (set_path _ _ pl types _ _ _ _ _ _ _ _ _ _ _ _ GD OL NS O' (NoDup_nil loc) FR ST) as (H2 & he1 & fp' & HS & GD' & X). rewrite app_nil_r in HS.
  assert (SH2 : shr ro H2 w hw) by (eapply resR_ext; [exact GD|exact X|exact SH]).
  destruct (setv H2 G e1 he1 fp' fz x w hw) as (he2 & K); auto.
  destruct (K _ ST2) as [HS2 GD2]. exists H2, he2, HNext, fp', [].
  split. { cbn [GoMem.hexec]. rewrite HV. cbn [hlift]. rewrite HW. cbn [hlift]. rewrite HS. cbn [hlift]. rewrite HS2. reflexivity. }
  conj.
Qed.

Lemma sim_cond : forall H G e he fp fz c b, good H G e he fp fz -> pureE G c = true -> eval e c = Ok (VBool b) -> heval H he c = Ok (HBool b, H).
Proof.
  intros H G e he fp fz c b GD PU EV. destruct (eval_sim ro self pl wide types _ _ _ _ _ _ (g_env _ _ _ _ _ _ _ _ GD) _ _ PU EV) as (hv & HV & B).
  apply brw_bool in B. now subst.
Qed.
Lemma flat : forall G s, (forall H e he fp fz e' r, good H G e he fp fz -> exec s e = (e', r) -> normal r ->
  exists H' he' hr fp', hexec s H he = (H', he', hr) /\ good H' G e' he' fp' fz /\ ext H fp H' fp' /\ resR ro H' r hr) -> simS G s G.
Proof.
  intros G s K H e he fp fz e' r GD E N. destruct (K _ _ _ _ _ _ _ GD E N) as (H' & he' & hr & fp' & A & B & C & D).
  exists H', he', hr, fp', []. split; auto. split; [constructor|]. auto.
Qed.

Lemma sim_if : forall G c b, pureE G c = true -> simK G b -> simS G (SIf c b) G.
Proof.
  intros G c b PU K. apply flat. intros H e he fp fz e' r GD E N. rewrite exec_if in E. apply lift_inv in E as (v & EV & E); auto.
  destruct v as [| | | | | | |[]]; try (inversion E; subst; contradiction).
  - rewrite hexec_if, (sim_cond _ _ _ _ _ _ _ _ GD PU EV). cbn [hlift]. apply K with (e := e); auto.
  - rewrite hexec_if, (sim_cond _ _ _ _ _ _ _ _ GD PU EV). cbn [hlift]. inversion E; subst. exists H, he, HNext, fp. conj.
Qed.

Lemma sim_switch : forall G cs, (forall c b, In (Some c, b) cs -> pureE G c = true) -> (forall o b, In (o, b) cs -> simK G b) -> simS G (SSwitch cs) G.
Proof.
  intros G cs PU K. apply flat. intros H e he fp fz e' r GD E N. rewrite exec_switch in E. rewrite hexec_switch.
  assert (D : forall cs1, (forall o b, In (o, b) cs1 -> simK G b) -> swDefault types call n e cs1 = (e', r) ->
    exists H' he' hr fp', hswDefault pl types hcall n he cs1 H = (H', he', hr) /\ good H' G e' he' fp' fz /\ ext H fp H' fp' /\ resR ro H' r hr).
  { induction cs1 as [|[[c|] b] cs1 IH]; intros K1 E1; cbn [swDefault hswDefault] in *.
    - inversion E1; subst. exists H, he, HNext, fp. conj.
    - apply IH; auto. intros o b0 I0. apply (K1 o b0). now right.
    - apply (K1 None b (or_introl eq_refl)) with (e := e); auto. }
  assert (P : forall cs1, (forall c b, In (Some c, b) cs1 -> pureE G c = true) -> (forall o b, In (o, b) cs1 -> simK G b) ->
    swPick types call n e cs cs1 = (e', r) ->
    exists H' he' hr fp', hswPick pl types hcall n he cs cs1 H = (H', he', hr) /\ good H' G e' he' fp' fz /\ ext H fp H' fp' /\ resR ro H' r hr).
  { induction cs1 as [|[[c|] b] cs1 IH]; intros P1 K1 E1; cbn [swPick hswPick] in *; auto.
    - apply lift_inv in E1 as (v & EV & E1); auto. pose proof (P1 c b (or_introl eq_refl)) as PC.
      destruct v as [| | | | | | |[]]; try (inversion E1; subst; contradiction); rewrite (sim_cond _ _ _ _ _ _ _ _ GD PC EV); cbn [hlift].
      + apply (K1 _ b (or_introl eq_refl)) with (e := e); auto.
      + apply IH; auto; intros; [eapply P1|eapply K1]; right; eauto.
    - apply IH; auto; intros; [eapply P1|eapply K1]; right; eauto. }
  apply P; auto.
Qed.

Lemma sim_for : forall G x bound b, pureE ((x, KShr) :: G) bound = true -> simK ((x, KShr) :: G) b -> simS G (SForLt x bound b) G.
Proof.
  intros G x bound b PU K. apply flat. intros H e he fp fz e' r GD E N. rewrite exec_for in E. rewrite hexec_for.
  set (G1 := (x, KShr) :: G) in *.
  assert (IS : isShr G1 x = true) by (unfold isShr, G1; cbn [alookup]; now rewrite String.eqb_refl).
  assert (PC : pureE G1 (EBin BLt (EVar x) bound) = true) by (cbn [pureE]; now rewrite IS, orb_true_r, PU).
  assert (PA : pureE G1 (EBin BAdd (EVar x) (EInt 1)) = true) by (cbn [pureE]; now rewrite IS, orb_true_r).
  assert (L : forall m H e he fp e1 r, good H G1 e he fp fz -> forLoop types call n x bound b m e = (e1, r) -> normal r ->
    exists H' he' hr fp', hforLoop pl types hcall n x bound b m H he = (H', he', hr) /\ good H' G1 e1 he' fp' fz /\ ext H fp H' fp' /\ resR ro H' r hr).
  { clear H e he fp e' r GD E N. induction m as [|m IH]; intros H e he fp e1 r GD E N; cbn [forLoop hforLoop] in *.
    - apply lift_inv in E as (v & EV & E); auto. destruct v as [| | | | | | |[]]; try (inversion E; subst; contradiction).
      rewrite (sim_cond _ _ _ _ _ _ _ _ GD PC EV). cbn [hlift]. inversion E; subst. exists H, he, HNext, fp. conj.
    - apply lift_inv in E as (v & EV & E); auto. destruct v as [| | | | | | |[]]; try (inversion E; subst; contradiction);
        rewrite (sim_cond _ _ _ _ _ _ _ _ GD PC EV); cbn [hlift].
      + destruct (block types call n b e) as [e2 r2] eqn:EB.
        assert (N2 : normal r2) by (destruct r2; try exact I; inversion E; subst; contradiction).
        destruct (K _ _ _ _ _ _ _ GD EB N2) as (H2 & he2 & hr2 & fp2 & HB & GD2 & X2 & R2). rewrite HB.
        destruct r2; try contradiction; destruct hr2; try contradiction.
        * apply lift_inv in E as (w & EW & E); auto.
          assert (Z : exists z, w = VInt z).
          { cbn [GoLang.eval] in EW. destruct (alookup x e2) as [u|]; [|discriminate]. cbn [bind] in EW. destruct u; try discriminate. inversion EW. eauto. }
          destruct Z as [z ->].
          destruct (eval_sim ro self pl wide types _ _ _ _ _ _ (g_env _ _ _ _ _ _ _ _ GD2) _ _ PA EW) as (hw & HW & B). apply brw_int in B. subst hw.
          rewrite HW. cbn [hlift]. destruct GD2 as [ER2 ND2 RO2 IN2].
          destruct (IH H2 (assign x (VInt z) e2) (hassign x (HInt z) he2) fp2 e1 r) as (H3 & he3 & hr3 & fp3 & A1 & A2 & A3 & A4); auto.
          { constructor; auto. apply assign_shr; auto; [now apply shr_is|constructor]. }
          exists H3, he3, hr3, fp3. conj. eapply ext_trans; eauto.
        * inversion E; subst. exists H2, he2, (HRet v w), fp2. auto.
      + inversion E; subst. exists H, he, HNext, fp. conj. }
  destruct (forLoop types call n x bound b n ((x, VInt 0) :: e)) as [e1 r1] eqn:EF. inversion E; subst. destruct GD as [ER ND RO IN].
  destruct (L n H ((x, VInt 0) :: e) ((x, HInt 0) :: he) fp e1 r) as (H1 & he1 & hr & fp1 & A1 & A2 & A3 & A4); auto.
  { constructor; auto. apply envR_shr; auto. constructor. }
  rewrite A1. destruct (envR_length _ _ _ _ _ _ _ _ ER) as [L1 L2].
  assert (WM : warm [(x, KShr)]) by (repeat constructor; discriminate).
  destruct (good_drop ro self [(x, KShr)] H1 G e1 he1 fp1 fz e he WM A2) as (fp2 & GD2 & SB); try lia.
  exists H1, (hleave he he1), hr, fp2. conj. eapply ext_sub; eauto.
Qed.

Lemma sim_return : forall G a b, shrE G a = true -> shrE G b = true -> simS G (SReturn a b) G.
Proof.
  intros G a b SA SB. apply flat. intros H e he fp fz e' r GD E N. cbn [GoLang.exec] in E. apply lift_inv in E as (v & EV & E); auto.
  apply lift_inv in E as (w & EW & E); auto. inversion E; subst.
  destruct (shr_sim ro self pl wide types _ _ _ _ _ _ _ _ (g_env _ _ _ _ _ _ _ _ GD) SA EV) as (hv & d & HV & SV & _).
  pose proof (good_app _ _ _ d _ _ _ _ _ GD) as GD1.
  destruct (shr_sim ro self pl wide types _ _ _ _ _ _ _ _ (g_env _ _ _ _ _ _ _ _ GD1) SB EW) as (hw & d2 & HW & SW & _).
  exists ((H ++ d) ++ d2), he, (HRet hv hw), fp. split. { cbn [GoMem.hexec]. rewrite HV. cbn [hlift]. rewrite HW. reflexivity. }
  split; [now apply good_app|]. split; [rewrite <- app_assoc; apply ext_app|]. split; auto. eapply resR_ext; [exact GD1|apply ext_app|exact SV].
Qed.

Lemma args_sim : forall H G e he fp fz, envR H G e he fp fz -> forall ys vs, forallb (isShr G) ys = true -> mapM (eval e) (map EVar ys) = Ok vs ->
  exists hvs, hevals pl types H he (map EVar ys) = Ok (hvs, H) /\ Forall2 (shr ro H) vs hvs.
Proof.
  intros H G e he fp fz ER. induction ys as [|y ys IH]; intros vs F M; cbn [map mapM hevals forallb] in *.
  - inversion M. exists []. auto.
  - apply andb_true_iff in F as [F1 F2]. apply shr_is in F1. cbn [GoLang.eval GoMem.heval] in *. destruct (alookup y e) as [v|] eqn:L; [|discriminate]. cbn [bind] in M.
    destruct (mapM (eval e) (map EVar ys)) as [vs1| | |] eqn:M1; try discriminate. cbn [bind] in M. inversion M; subst.
    destruct (lookup_shr _ _ _ _ _ _ _ _ ER _ _ F1 L) as (hv & LH & S). destruct (IH _ F2 eq_refl) as (hvs & A & B).
    exists (hv :: hvs). rewrite LH. cbn [bind]. rewrite A. split; auto.
Qed.

Lemma mapM_length : forall {A B} (k : A -> outcome B) l vs, mapM k l = Ok vs -> List.length vs = List.length l.
Proof.
  intros A B k. induction l as [|a l IH]; intros vs E; cbn [mapM] in E; [inversion E; auto|]. destruct (k a); try discriminate. cbn [bind] in E.
  destruct (mapM k l); try discriminate. cbn [bind] in E. inversion E. cbn. auto.
Qed.

Lemma sim_parse : forall G x err o y ys, okL G o = true -> isShr G x = true -> isShr G err = true -> isShr G y = true -> forallb (isShr G) ys = true ->
  forall H e he fp fz e' r, good H G e he fp fz -> (forall v, eval e (lexpr o) = Ok v -> ariV ari v (List.length ys)) ->
  exec (SParse x err o (EVar y) (map EVar ys)) e = (e', r) -> normal r ->
  exists H' he' hr fp', hexec (SParse x err o (EVar y) (map EVar ys)) H he = (H', he', hr) /\ good H' G e' he' fp' fz /\ ext H fp H' fp' /\ resR ro H' r hr.
Proof.
  intros G x err o y ys OL IX IE IY IYS H e he fp fz e' r GD AR E N. cbn [GoLang.exec] in E.
  apply lift_inv in E as (recv & EO & E); auto. apply lift_inv in E as (dv & ED & E); auto. apply lift_inv in E as (vs & EA & E); auto.
  destruct (call recv dv vs) as [recv' rc] eqn:C. destruct rc; try (inversion E; subst; contradiction).
  apply lift_inv in E as (e1 & S1 & E); auto. apply lift_inv in E as (e2 & S2 & E); auto. apply lift_inv in E as (e3 & S3 & E); auto. inversion E; subst.
  pose proof GD as GD0. destruct GD as [ER ND RO IN].
  destruct (path ro self pl types G o OL _ _ _ _ _ _ ER ND RO EO) as (hv0 & fp0 & rest & O0 & P & EV0 & K).
  assert (HO : heval H he (lexpr o) = Ok (hv0, H)) by (apply EV0; now intros l _).
  cbn [GoLang.eval] in ED. destruct (alookup y e) as [dv'|] eqn:LY; [|discriminate]. inversion ED; subst dv'.
  apply shr_is in IY. destruct (lookup_shr _ _ _ _ _ _ _ _ ER _ _ IY LY) as (hd & LH & SD).
  destruct (args_sim _ _ _ _ _ _ ER _ _ IYS EA) as (hvs & HA & FA).
  pose proof (Permutation_NoDup P ND) as ND'. destruct (nodup_app _ _ ND') as (ND0 & NDr & DJ).
  assert (BD : forall l, In l fp -> (l < List.length H)%nat) by (apply (envR_bound _ _ _ _ _ _ _ _ ER)).
  destruct (CR H recv dv vs hv0 hd hvs fp0 recv' v1 v2) as (H1 & hv & hw & fp1 & HC & O1 & ND1 & RO1 & X1 & SV & SW); auto.
  { intros l I. apply RO. rewrite P. apply in_or_app. auto. }
  { rewrite (mapM_length _ _ _ EA), map_length. auto. }
  destruct X1 as (X1 & X2 & X3).
  assert (AGr : agree (fun l => In l rest) H H1).
  { intros l I. apply X2; [apply BD; rewrite P; apply in_or_app; auto|]. intros J. eapply DJ; eauto. }
  assert (AGo : agree ro H H1).
  { intros l I. apply X2; auto. intros J. apply (RO l); auto. rewrite P. apply in_or_app. auto. }
  destruct (K H1 recv' hv0 fp1 e1) as (H2 & he1 & fp' & HS & E1 & P1 & _ & _ & Same); auto.
  { intros l I J. destruct (X3 _ I) as [I'|I']; [eapply DJ; eauto|]. specialize (BD l). rewrite P in BD. specialize (BD (in_or_app _ _ _ (or_intror J))). lia. }
  destruct (Same eq_refl) as [-> ->]. clear Same HS.
  assert (GD1 : good H1 G e1 he fp' fz).
  { constructor; auto.
    - apply (Permutation_NoDup (Permutation_sym P1)). clear - ND1 NDr X3 BD P DJ.
      assert (D : forall l, In l fp1 -> ~ In l rest).
      { intros l I J. destruct (X3 _ I) as [I'|I']; [eapply DJ; eauto|]. specialize (BD l). rewrite P in BD. specialize (BD (in_or_app _ _ _ (or_intror J))). lia. }
      clear X3. induction fp1 as [|q fp1 IH]; cbn [app]; auto. inversion ND1; subst. constructor.
      + intros I. apply in_app_or in I as [I|I]; [contradiction|]. apply (D q); auto. now left.
      + apply IH; auto. intros l I. apply D. now right.
    - intros l I R. apply (perm_in _ _ _ P1) in I. apply in_app_or in I as [I|I]; [eapply RO1; eauto|]. apply (RO l); auto. rewrite P. apply in_or_app. auto.
    - intros l R. specialize (IN _ R). lia. }
  destruct (setv _ _ _ _ _ _ x v1 hv GD1 IX SV) as (he2 & K2). destruct (K2 _ S2) as [HS2 GD2].
  destruct (setv _ _ _ _ _ _ err v2 hw GD2 IE SW) as (he3 & K3). destruct (K3 _ S3) as [HS3 GD3].
  exists H1, he3, HNext, fp'. split.
  { cbn [GoMem.hexec]. rewrite HO. cbn [hlift GoMem.heval]. rewrite LH. cbn [hlift]. rewrite HA. cbn [hlift]. rewrite HC, HS2. cbn [hlift]. rewrite HS3. reflexivity. }
  split; auto. split; [|exact I]. split; auto. split.
  - intros l L NI. apply X2; auto. intros J. apply NI. rewrite P. apply in_or_app. auto.
  - intros l I. apply (perm_in _ _ _ P1) in I. apply in_app_or in I as [I|I].
    + destruct (X3 _ I); auto. left. rewrite P. apply in_or_app. auto.
    + left. rewrite P. apply in_or_app. auto.
Qed.
End Sim.
End Old.
