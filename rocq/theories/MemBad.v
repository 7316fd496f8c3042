(** Calls that never end or ask for too large a slice do so on the machine with
    memory as well. *)
From Coq Require Import ZArith String List Bool Lia ZifyBool ZifyNat Permutation.
From Verif Require Import Base GoLang GenSim GoMem MemSim MemPath MemExec MemStep MemFill MemCall.
Import ListNotations.
Open Scope string_scope.
Open Scope list_scope.
Open Scope Z_scope.

Definition tooLong : string := "makeslice: len out of range".
Definition bad (r : sres) : Prop := match r with SFuel => True | SPanic m => m = tooLong | _ => False end.
Definition badH (r : sres) : hres := match r with SFuel => HFuel | SPanic m => HPanic m | _ => HNext end.

(** Computations that end neither way. *)
Definition cold {A} (x : outcome A) : Prop := match x with OutOfFuel => False | Panic m => m <> tooLong | _ => True end.
Lemma cold_bind : forall {A B} (x : outcome A) (k : A -> outcome B), cold x -> (forall a, cold (k a)) -> cold (x <- x ;; k x).
Proof. intros A B [] k C K; cbn in *; auto. Qed.
Lemma cold_stuck : forall {A}, cold (@stuck A).
Proof. intros A. cbn. discriminate. Qed.
Lemma lift_cold : forall {A} e (x : outcome A) k e' r, cold x -> lift e x k = (e', r) -> bad r -> exists a, x = Ok a /\ k a = (e', r).
Proof.
  intros A e x k e' r C E B. destruct x; cbn [lift cold] in *; [eauto|..]; inversion E; subst; cbn in B; try contradiction. discriminate B.
Qed.

Fixpoint noMake (x : expr) : bool :=
  match x with
  | EMake _ _ => false
  | ESel a _ | ELen a | EToInt a | ENot a | EParen a | EBigEndian _ a | EIndexByte a _ | EStringOf a | ENotNil a => noMake a
  | EIdx a b | EBin _ a b | EFrom a b | ETo a b | EAppend a b => noMake a && noMake b
  | _ => true
  end.
Lemma eval_cold : forall types e x, noMake x = true -> cold (eval types e x).
Proof.
  intros types e. induction x; intros N; cbn [noMake] in N; try discriminate;
    repeat match goal with A : _ && _ = true |- _ => apply andb_true_iff in A as [? ?] end;
    try (match goal with |- context [EBin ?o _ _] => destruct o end);
    cbn [eval];
    repeat first
      [ apply cold_stuck | exact I | apply cold_bind; [now auto|intros ?] | now auto
      | match goal with
        | |- cold (match ?y with _ => _ end) => destruct y
        | |- cold (if ?y then _ else _) => destruct y
        end
      | cbn; discriminate ].
Qed.
Lemma pure_cold : forall types G e x, pureE G x = true -> cold (eval types e x).
Proof.
  intros types G e x P. apply eval_cold. revert P. induction x; cbn [pureE noMake]; auto; try discriminate.
  all: try (intros A; apply andb_true_iff in A as [A1 A2]; rewrite IHx1, IHx2; auto).
  destruct x; try discriminate. reflexivity.
Qed.
Lemma shr_cold : forall types G e x, shrE G x = true -> cold (eval types e x).
Proof.
  intros types G e x S. destruct x; cbn [shrE] in S; try discriminate; try (apply (pure_cold types G); exact S); apply eval_cold; reflexivity.
Qed.
Lemma scalar_cold : forall types G e x, scalarE G x = true -> cold (eval types e x).
Proof. intros types G e x S. unfold scalarE in S. apply andb_true_iff in S as [S _]. now apply (pure_cold types G). Qed.
Lemma store_cold : forall types G l, okL G l = true -> forall e v, cold (store types e l v).
Proof.
  intros types G. induction l; intros OL e v; cbn [store okL] in *.
  - destruct (alookup x e); [exact I|apply cold_stuck].
  - apply cold_bind. { apply (pure_cold types G). apply okL_pure; auto. }
    intros []; try apply cold_stuck; try (cbn; discriminate). destruct (alookup f fs); [apply IHl; auto|apply cold_stuck].
  - destruct i; try discriminate. apply andb_true_iff in OL as [OL _]. apply andb_true_iff in OL as [OL OI].
    apply cold_bind. { apply (pure_cold types G). apply okL_pure; auto. }
    intros a. apply cold_bind. { now apply eval_cold. }
    intros k. destruct a; try apply cold_stuck; destruct k; try apply cold_stuck; try (cbn; discriminate).
    destruct (nthZ l0 z); [apply IHl; auto|cbn; discriminate].
Qed.
Lemma var_cold : forall types e x v, cold (store types e (LVar x) v).
Proof. intros. cbn [store]. destruct (alookup x e); [exact I|apply cold_stuck]. Qed.
Lemma mapM_cold : forall types e ys, cold (mapM (eval types e) (map EVar ys)).
Proof.
  intros types e. induction ys as [|y ys IH]; cbn [map mapM]; [exact I|]. apply cold_bind; [now apply eval_cold|]. intros v. apply cold_bind; auto. intros; exact I.
Qed.

Section Old.
Context {oldI : Old}.

Definition callB (ari : string -> nat -> Prop) (ro : loc -> Prop) (call : callfun) (hcall : hcallfun) : Prop :=
  forall H recv d args hrecv hd hargs fp0 recv' r,
    own H recv hrecv fp0 -> NoDup fp0 -> (forall l, In l fp0 -> ~ ro l) -> (forall l, ro l -> (l < List.length H)%nat) ->
    shr ro H d hd -> Forall2 (shr ro H) args hargs -> ariV ari recv (List.length args) -> call recv d args = (recv', r) -> bad r ->
    exists H', hcall H hrecv hd hargs = (H', badH r).

Section Sim.
Variable ari : string -> nat -> Prop.
Variable ro : loc -> Prop.
Variable self : hval.
Variable pl : platform.
Hypothesis wide : word pl = 8.
Variable types : amap (list (string * gtype)).
Variable call : callfun.
Variable hcall : hcallfun.
Variable n : nat.
Hypothesis CR : callR ari ro call hcall.
Hypothesis CB : callB ari ro call hcall.
Notation envR := (envR ro self).
Notation good := (good ro self).
Notation eval := (eval types).
Notation exec := (exec types call n).
Notation execs := (execs types call n).
Notation heval := (heval pl types).
Notation hexec := (hexec pl types hcall n).
Notation hexecs := (hexecs pl types hcall n).
Notation simS := (simS ro self pl types call hcall n).
Notation simB := (simB ro self pl types call hcall n).
Notation simK := (simK ro self pl types call hcall n).

Definition badS (G : ctx) (s : stmt) : Prop :=
  forall H e he fp fz e' r, good H G e he fp fz -> exec s e = (e', r) -> bad r -> exists H' he', hexec s H he = (H', he', badH r).
Definition badB (G : ctx) (b : list stmt) : Prop :=
  forall H e he fp fz e' r, good H G e he fp fz -> execs b e = (e', r) -> bad r -> exists H' he', hexecs b H he = (H', he', badH r).
Definition badK (G : ctx) (b : list stmt) : Prop :=
  forall H e he fp fz e' r, good H G e he fp fz -> block types call n b e = (e', r) -> bad r ->
  exists H' he', hblock pl types hcall n b H he = (H', he', badH r).

Lemma bad_block : forall G b, badB G b -> badK G b.
Proof.
  intros G b S H e he fp fz e' r GD E B. unfold block in E. destruct (execs b e) as [e1 r1] eqn:EB. inversion E; subst.
  destruct (S _ _ _ _ _ _ _ GD EB B) as (H1 & he1 & HB). exists H1, (hleave he he1). unfold hblock. now rewrite HB.
Qed.
Ltac none := match goal with Q : (_, _) = (_, _) |- _ => inversion Q; subst; contradiction end.
Lemma bad_decl : forall G x a, shrE G a = true -> badS G (SDecl x a).
Proof. intros G x a S H e he fp fz e' r GD E B. cbn [GoLang.exec] in E. apply lift_cold in E as (v & _ & E); auto; [none|now apply (shr_cold types G)]. Qed.
Lemma bad_set : forall G l a, okL G l = true -> selfVar G l = false -> scalarE G a = true \/ freshE G a = true -> badS G (SAssign l a).
Proof.
  intros G l a OL NS K H e he fp fz e' r GD E B. cbn [GoLang.exec] in E.
  assert (D : cold (eval e a) \/ exists g k, a = EMake g k /\ pureE G k = true).
  { destruct K as [K|K]; [left; now apply (scalar_cold types G)|]. destruct a; try discriminate; [right; eauto|left; now apply eval_cold]. }
  destruct D as [C|(g & k & -> & P)].
  - apply lift_cold in E as (v & _ & E); auto. apply lift_cold in E as (e1 & _ & E); auto; [none|now apply (store_cold types G)].
  - destruct (eval e (EMake g k)) as [v|m|m|] eqn:EV; cbn [lift] in E.
    + apply lift_cold in E as (e1 & _ & E); auto; [none|now apply (store_cold types G)].
    + injection E as <- <-. discriminate B.
    + injection E as <- <-. cbn in B. subst m. cbn [GoLang.eval] in EV. destruct (eval e k) as [v| |m|] eqn:EK; cbn [bind] in EV; try discriminate.
      * destruct v; try discriminate. destruct ((z <? 0) || (maxAlloc <? z * gsize g)) eqn:Z; [|discriminate].
        destruct (eval_sim ro self pl wide types _ _ _ _ _ _ (g_env _ _ _ _ _ _ _ _ GD) _ _ P EK) as (hv & HV & BR). apply brw_int in BR. subst hv.
        exists H, he. cbn [GoMem.hexec GoMem.heval]. rewrite HV. cbn [bind]. rewrite wide, hsize_8. change (hmax 8) with maxAlloc. rewrite Z. reflexivity.
      * pose proof (pure_cold types G e k P) as C. rewrite EK in C. inversion EV; subst. contradiction C; reflexivity.
    + cbn [GoLang.eval] in EV. pose proof (pure_cold types G e k P) as C. destruct (eval e k) as [[]| | |]; cbn [bind] in EV; try discriminate; [|contradiction].
      destruct ((z <? 0) || (maxAlloc <? z * gsize g)); discriminate.
Qed.
Lemma bad_setv : forall G x a, isShr G x = true -> shrE G a = true -> badS G (SAssign (LVar x) a).
Proof.
  intros G x a IS S H e he fp fz e' r GD E B. cbn [GoLang.exec] in E. apply lift_cold in E as (v & _ & E); auto; [|now apply (shr_cold types G)].
  apply lift_cold in E as (e1 & _ & E); auto; [none|apply var_cold].
Qed.
Lemma bad_set2 : forall G l x a b, okL G l = true -> scalarE G a = true -> shrE G b = true -> badS G (SAssign2 l (LVar x) a b).
Proof.
  intros G l x a b OL SA SB H e he fp fz e' r GD E B. cbn [GoLang.exec] in E.
  apply lift_cold in E as (v & _ & E); auto; [|now apply (scalar_cold types G)]. apply lift_cold in E as (w & _ & E); auto; [|now apply (shr_cold types G)].
  apply lift_cold in E as (e1 & _ & E); auto; [|now apply (store_cold types G)]. apply lift_cold in E as (e2 & _ & E); auto; [none|apply var_cold].
Qed.
Lemma bad_if : forall G c b, pureE G c = true -> badK G b -> badS G (SIf c b).
Proof.
  intros G c b PU K H e he fp fz e' r GD E B. rewrite exec_if in E. apply lift_cold in E as (v & EV & E); auto; [|eapply (pure_cold types _); eassumption].
  destruct v as [| | | | | | |[]]; try (inversion E; subst; contradiction); try (inversion E; subst; discriminate B).
  rewrite hexec_if, (sim_cond ro self pl wide types _ _ _ _ _ _ _ _ GD PU EV). cbn [hlift]. eapply K; eauto.
Qed.
Lemma bad_switch : forall G cs, (forall c b, In (Some c, b) cs -> pureE G c = true) -> (forall o b, In (o, b) cs -> badK G b) -> badS G (SSwitch cs).
Proof.
  intros G cs PU K H e he fp fz e' r GD E B. rewrite exec_switch in E. rewrite hexec_switch.
  assert (D : forall cs1, (forall o b, In (o, b) cs1 -> badK G b) -> swDefault types call n e cs1 = (e', r) ->
    exists H' he', hswDefault pl types hcall n he cs1 H = (H', he', badH r)).
  { induction cs1 as [|[[c|] b] cs1 IH]; intros K1 E1; cbn [swDefault hswDefault] in *.
    - none.
    - apply IH; auto. intros o b0 I0. apply (K1 o b0). now right.
    - eapply (K1 None b (or_introl eq_refl)); eauto. }
  assert (P : forall cs1, (forall c b, In (Some c, b) cs1 -> pureE G c = true) -> (forall o b, In (o, b) cs1 -> badK G b) ->
    swPick types call n e cs cs1 = (e', r) -> exists H' he', hswPick pl types hcall n he cs cs1 H = (H', he', badH r)).
  { induction cs1 as [|[[c|] b] cs1 IH]; intros P1 K1 E1; cbn [swPick hswPick] in *; auto.
    - pose proof (P1 c b (or_introl eq_refl)) as PC. apply lift_cold in E1 as (v & EV & E1); auto; [|eapply (pure_cold types _); eassumption].
      destruct v as [| | | | | | |[]]; try (inversion E1; subst; contradiction); try (inversion E1; subst; discriminate B);
        rewrite (sim_cond ro self pl wide types _ _ _ _ _ _ _ _ GD PC EV); cbn [hlift].
      + eapply (K1 _ b (or_introl eq_refl)); eauto.
      + apply IH; auto; intros; [eapply P1|eapply K1]; right; eauto.
    - apply IH; auto; intros; [eapply P1|eapply K1]; right; eauto. }
  apply P; auto.
Qed.
Lemma bad_for : forall G x bound b, pureE ((x, KShr) :: G) bound = true -> simK ((x, KShr) :: G) b -> badK ((x, KShr) :: G) b -> badS G (SForLt x bound b).
Proof.
  intros G x bound b PU SK K H e he fp fz e' r GD E B. rewrite exec_for in E. rewrite hexec_for.
  set (G1 := (x, KShr) :: G) in *.
  assert (IS : isShr G1 x = true) by (unfold isShr, G1; cbn [alookup]; now rewrite String.eqb_refl).
  assert (PC : pureE G1 (EBin BLt (EVar x) bound) = true) by (cbn [pureE]; now rewrite IS, orb_true_r, PU).
  assert (PA : pureE G1 (EBin BAdd (EVar x) (EInt 1)) = true) by (cbn [pureE]; now rewrite IS, orb_true_r).
  assert (L : forall m H e he fp e1 r, good H G1 e he fp fz -> forLoop types call n x bound b m e = (e1, r) -> bad r ->
    exists H' he', hforLoop pl types hcall n x bound b m H he = (H', he', badH r)).
  { clear H e he fp e' r GD E B. induction m as [|m IH]; intros H e he fp e1 r GD E B; cbn [forLoop hforLoop] in *;
      (apply lift_cold in E as (v & EV & E); auto; [|eapply (pure_cold types _); eassumption]);
      (destruct v as [| | | | | | |[]]; try (inversion E; subst; contradiction); try (inversion E; subst; discriminate B));
      rewrite (sim_cond ro self pl wide types _ _ _ _ _ _ _ _ GD PC EV); cbn [hlift].
    - inversion E; subst. eauto.
    - destruct (block types call n b e) as [e2 r2] eqn:EB.
      assert (D : r2 = SNext \/ (bad r2 /\ (e1, r) = (e2, r2))).
      { destruct r2; auto; right; inversion E; subst; auto. }
      destruct D as [->|[B2 Q]].
      + destruct (SK _ _ _ _ _ _ _ GD EB I) as (H2 & he2 & hr2 & fp2 & HB & GD2 & X2 & R2). rewrite HB. destruct hr2; try contradiction.
        apply lift_cold in E as (w & EW & E); auto; [|eapply (pure_cold types _); eassumption].
        assert (Z : exists z, w = VInt z).
        { cbn [GoLang.eval] in EW. destruct (alookup x e2) as [u|]; [|discriminate]. cbn [bind] in EW. destruct u; try discriminate. inversion EW. eauto. }
        destruct Z as [z ->].
        destruct (eval_sim ro self pl wide types _ _ _ _ _ _ (g_env _ _ _ _ _ _ _ _ GD2) _ _ PA EW) as (hw & HW & BR). apply brw_int in BR. subst hw.
        rewrite HW. cbn [hlift]. destruct GD2 as [ER2 ND2 RO2 IN2].
        apply (IH H2 (assign x (VInt z) e2) (hassign x (HInt z) he2) fp2 e1 r); auto.
        constructor; auto. apply assign_shr; auto; [now apply shr_is|constructor].
      + injection Q as -> ->. destruct (K _ _ _ _ _ _ _ GD EB B2) as (H2 & he2 & HB). rewrite HB. destruct r2; try contradiction; cbn [badH]; eauto. }
  destruct (forLoop types call n x bound b n ((x, VInt 0) :: e)) as [e1 r1] eqn:EF. inversion E; subst. destruct GD as [ER ND RO IN].
  destruct (L n H ((x, VInt 0) :: e) ((x, HInt 0) :: he) fp e1 r) as (H1 & he1 & A1); auto.
  { constructor; auto. apply envR_shr; auto. constructor. }
  rewrite A1. eauto.
Qed.
Lemma bad_return : forall G a b, shrE G a = true -> shrE G b = true -> badS G (SReturn a b).
Proof.
  intros G a b SA SB H e he fp fz e' r GD E B. cbn [GoLang.exec] in E. apply lift_cold in E as (v & _ & E); auto; [|now apply (shr_cold types G)].
  apply lift_cold in E as (w & _ & E); auto; [none|now apply (shr_cold types G)].
Qed.
Lemma bad_parse : forall G x err o y ys, okL G o = true -> isShr G y = true -> forallb (isShr G) ys = true ->
  forall H e he fp fz e' r, good H G e he fp fz -> (forall v, eval e (lexpr o) = Ok v -> ariV ari v (List.length ys)) ->
  exec (SParse x err o (EVar y) (map EVar ys)) e = (e', r) -> bad r ->
  exists H' he', hexec (SParse x err o (EVar y) (map EVar ys)) H he = (H', he', badH r).
Proof.
  intros G x err o y ys OL IY IYS H e he fp fz e' r GD AR E B. cbn [GoLang.exec] in E.
  apply lift_cold in E as (recv & EO & E); auto; [|apply (pure_cold types G); now apply okL_pure].
  apply lift_cold in E as (dv & ED & E); auto; [|now apply eval_cold]. apply lift_cold in E as (vs & EA & E); auto; [|apply mapM_cold].
  destruct (call recv dv vs) as [recv' rc] eqn:C.
  assert (D : bad rc /\ (e, rc) = (e', r)).
  { destruct rc; try (split; [|exact E]; inversion E; subst; exact B).
    - inversion E; subst. discriminate B.
    - apply lift_cold in E as (e1 & _ & E); auto; [|now apply (store_cold types G)]. apply lift_cold in E as (e2 & _ & E); auto; [|apply var_cold].
      apply lift_cold in E as (e3 & _ & E); auto; [none|apply var_cold]. }
  destruct D as [BC Q]. injection Q as -> ->. clear E B. pose proof GD as GD0. destruct GD as [ER ND RO IN].
  destruct (path ro self pl types G o OL _ _ _ _ _ _ ER ND RO EO) as (hv0 & fp0 & rest & O0 & P & EV0 & K).
  assert (HO : heval H he (lexpr o) = Ok (hv0, H)) by (apply EV0; now intros l _).
  cbn [GoLang.eval] in ED. destruct (alookup y e') as [dv'|] eqn:LY; [|discriminate]. inversion ED; subst dv'.
  apply shr_is in IY. destruct (lookup_shr _ _ _ _ _ _ _ _ ER _ _ IY LY) as (hd & LH & SD).
  destruct (args_sim ro self pl types _ _ _ _ _ _ ER _ _ IYS EA) as (hvs & HA & FA).
  pose proof (Permutation_NoDup P ND) as ND'. destruct (nodup_app _ _ ND') as (ND0 & NDr & DJ).
  destruct (CB H recv dv vs hv0 hd hvs fp0 recv' r) as (H1 & HC); auto.
  { intros l I. apply RO. rewrite P. apply in_or_app. auto. }
  { rewrite (mapM_length _ _ _ EA), map_length. auto. }
  exists H1, he. cbn [GoMem.hexec]. rewrite HO. cbn [hlift GoMem.heval]. rewrite LH. cbn [hlift]. rewrite HA. cbn [hlift]. rewrite HC.
  destruct r; try contradiction; reflexivity.
Qed.

(* ---------- the loop that appends ---------- *)
Section Fill.
Variable G : ctx.
Variable g : gtype.
Variable r f x : string.
Variable c : expr.
Variable body : list stmt.
Variable d : ctx.
Hypothesis RO : isOwner G r = true.
Hypothesis RX : r <> x.
Hypothesis PC : pureE G c = true.
Hypothesis SB : simB ((x, KMine) :: freeze G) body (d ++ (x, KMine) :: freeze G).
Hypothesis BB : badB ((x, KMine) :: freeze G) body.
Hypothesis WD : warm d.
Hypothesis ND : ~ In x (map fst d).
Hypothesis NR : ~ In r (map fst d).
Notation W := (W g r f x body).
Notation L := (MemFill.L r f).
Notation LE := (MemFill.LE r f).
Notation ready := (ready pl types r f).

Lemma bad_step : forall H e he fp fz e' rr, good H G e he fp fz -> block types call n W e = (e', rr) -> bad rr ->
  exists H' he', hblock pl types hcall n W H he = (H', he', badH rr).
Proof.
  intros H e he fp fz e' rr GD E B. pose proof GD as [ER NDf ROf IN].
  unfold block, MemFill.W in E. rewrite execs_cons in E. cbn [GoLang.exec] in E. rewrite execs_app in E.
  destruct (execs body ((x, zero g) :: e)) as [e2 r2] eqn:EB.
  destruct (freeze_env _ _ _ _ _ _ _ _ ER) as (fz' & EF & TH).
  assert (GF : good H ((x, KMine) :: freeze G) ((x, zero g) :: e) ((x, hzero g) :: he) [] fz').
  { constructor; auto. - change (@nil loc) with (@nil loc ++ []). apply envR_own; auto; [discriminate|]. apply zero_own. - constructor. }
  assert (D : bad r2 /\ r2 = rr).
  { destruct r2; try (inversion E; subst; auto).
    exfalso. cbn [GoLang.execs GoLang.exec] in E.
    destruct (lift e2 (eval e2 (EAppend LE (EVar x))) (fun v => lift e2 (store types e2 L v) (fun e'0 => (e'0, SNext)))) as [e3 r3] eqn:LQ.
    assert (BL : bad r3 -> False).
    { intros B3. apply lift_cold in LQ as (v & _ & LQ); auto; [|now apply eval_cold].
      apply lift_cold in LQ as (e4 & _ & LQ); auto; [none|]. apply (store_cold types G L RO). }
    destruct r3; inversion E; subst; auto. }
  destruct D as [B2 ->]. destruct (BB _ _ _ _ _ _ _ GF EB B2) as (H2 & he2 & HB).
  unfold hblock, MemFill.W. rewrite hexecs_cons. cbn [GoMem.hexec]. rewrite hexecs_app, HB. destruct rr; try contradiction; cbn [badH]; eauto.
Qed.
Lemma bad_loop : forall m H e he fp fz e' rr, good H G e he fp fz -> ready H e he -> whileLoop types call n c W m e = (e', rr) -> bad rr ->
  exists H' he', hwhileLoop pl types hcall n c W m H he = (H', he', badH rr).
Proof.
  induction m as [|m IH]; intros H e he fp fz e' rr GD RD E B; cbn [whileLoop hwhileLoop] in *;
    (apply lift_cold in E as (v & EV & E); auto; [|eapply (pure_cold types _); eassumption]);
    (destruct v as [| | | | | | |[]]; try (inversion E; subst; contradiction); try (inversion E; subst; discriminate B));
    rewrite (sim_cond ro self pl wide types _ _ _ _ _ _ _ _ GD PC EV); cbn [hlift].
  - inversion E; subst. eauto.
  - destruct (block types call n W e) as [e2 r2] eqn:EB.
    assert (D : r2 = SNext \/ (bad r2 /\ (e', rr) = (e2, r2))).
    { destruct r2; auto; right; inversion E; subst; auto. }
    destruct D as [->|[B2 Q]].
    + destruct (fill_step ro self pl types call hcall n G g r f x c body d RO RX SB WD ND NR _ _ _ _ _ _ _ GD RD EB I)
        as (H2 & he2 & hr2 & fp2 & HB & GD2 & X2 & R2 & RD2). rewrite HB. destruct hr2; try contradiction. eapply IH; eauto.
    + injection Q as -> ->. destruct (bad_step _ _ _ _ _ _ _ GD EB B2) as (H2 & he2 & HB). rewrite HB. destruct r2; try contradiction; cbn [badH]; eauto.
Qed.
Lemma bad_fill : forall b, badB G b -> badB G (SAssign L (EMake g (EInt 0)) :: SWhile c W :: b).
Proof.
  intros b SBb H e he fp fz e' rr GD E B. rewrite execs_cons in E. destruct (exec (SAssign L (EMake g (EInt 0))) e) as [e1 r1] eqn:E1.
  assert (OL : okL G L = true) by exact RO.
  assert (D : r1 = SNext \/ (bad r1 /\ (e', rr) = (e1, r1))).
  { destruct r1; auto; right; inversion E; subst; auto. }
  destruct D as [->|[B1 Q]].
  2: { injection Q as -> ->. destruct (bad_set G L (EMake g (EInt 0)) OL eq_refl (or_intror eq_refl) _ _ _ _ _ _ _ GD E1 B1) as (H1 & he1 & HB).
       rewrite hexecs_cons, HB. destruct r1; try contradiction; cbn [badH]; eauto. }
  cbn [GoLang.exec] in E1. apply lift_inv in E1 as (v & EV & E1); [|exact I]. apply lift_inv in E1 as (e1' & ST & E1); [|exact I]. inversion E1; subst e1'. clear E1.
  assert (PF : freshE G (EMake g (EInt 0)) = true) by reflexivity.
  destruct (fresh_sim ro self pl wide types _ _ _ _ _ _ _ _ (g_env _ _ _ _ _ _ _ _ GD) PF EV) as (hv & dd & fp1 & HV & O & ND1 & FR).
  assert (VV : exists vs, v = VList vs).
  { cbn [GoLang.eval bind] in EV. destruct ((0 <? 0) || (maxAlloc <? 0 * gsize g)); [discriminate|]. inversion EV. eauto. }
  assert (HVV : exists b off len cap, hv = HSlice b off len cap).
  { cbn [GoMem.heval bind] in HV. destruct ((0 <? 0) || (hmax (word pl) <? 0 * hsize (word pl) g)); [discriminate|]. cbn [alloc] in HV. inversion HV. eauto. }
  destruct VV as [vs ->], HVV as (b1 & off & len & cap & ->).
  destruct (set_path _ _ pl types _ _ _ _ _ _ _ _ _ _ _ _ GD OL eq_refl O ND1 FR ST) as (H2 & he1 & fp' & HS & GD1 & X1).
  destruct (hstore_field pl types r f _ _ _ _ _ HS) as (-> & HE & _). destruct (store_field types r f _ _ _ ST) as (u & EU & EVL & _).
  rewrite execs_cons, exec_while in E. destruct (whileLoop types call n c W n e1) as [e2 r2] eqn:EW.
  assert (RD : ready H2 e1 he) by (exists vs, b1, off, len, cap; auto).
  rewrite hexecs_cons. cbn [GoMem.hexec]. rewrite HV. cbn [hlift]. rewrite HS. cbn [hlift]. rewrite hexecs_cons, hexec_while.
  assert (D : r2 = SNext \/ (bad r2 /\ (e', rr) = (e2, r2))).
  { destruct r2; auto; right; inversion E; subst; auto. }
  destruct D as [->|[B1 Q]].
  - destruct (fill_loop ro self pl wide types call hcall n G g r f x c body d RO RX PC SB WD ND NR _ _ _ _ _ _ _ _ GD1 RD EW I) as (H3 & he3 & hr3 & fp3 & HW & GD3 & X3 & R3).
    rewrite HW. destruct hr3; try contradiction. eapply SBb; eauto.
  - injection Q as -> ->. destruct (bad_loop _ _ _ _ _ _ _ _ GD1 RD EW B1) as (H3 & he3 & HW). rewrite HW. destruct r2; try contradiction; cbn [badH]; eauto.
Qed.
End Fill.

Theorem bad_ok :
  (forall G s G', okS ari G s G' -> badS G s) /\
  (forall G b G', okB ari G b G' -> badB G b) /\
  (forall G cs, okC ari G cs -> (forall c b, In (Some c, b) cs -> pureE G c = true) /\ (forall o b, In (o, b) cs -> badK G b)).
Proof.
  pose proof (sim_ok ari ro self pl wide types call hcall n CR) as (SS & SBk & _).
  apply ok_ind.
  - intros G x a S. now apply bad_decl.
  - intros G x t H e he fp fz e' r GD E B. cbn [GoLang.exec] in E. none.
  - intros G x H e he fp fz e' r GD E B. cbn [GoLang.exec] in E. none.
  - intros G l a OL NS K. now apply bad_set.
  - intros G x a IS S. now apply bad_setv.
  - intros G l x a b OL NS SA IS SB PB. now apply bad_set2.
  - intros G c b G' PU _ S. apply bad_if; auto. eapply bad_block; eauto.
  - intros G b G' _ S H e he fp fz e' r GD E N. rewrite exec_block in E. rewrite hexec_block. eapply bad_block; eauto.
  - intros G x bound b G' PU OB S. apply bad_for; auto; [|eapply bad_block; eauto]. eapply sim_block. eapply SBk. eauto.
  - intros G cs _ [A B]. now apply bad_switch.
  - intros G a b SA SB. now apply bad_return.
  - intros G H e he fp fz e' r GD E N. cbn [GoLang.execs GoMem.hexecs] in *. none.
  - intros G s b G1 G2 OS B1 _ B2 H e he fp fz e' r GD E B. rewrite execs_cons in E. destruct (exec s e) as [e1 r1] eqn:E1.
    rewrite hexecs_cons.
    assert (D : r1 = SNext \/ (bad r1 /\ (e', r) = (e1, r1))).
    { destruct r1; auto; right; inversion E; subst; auto. }
    destruct D as [->|[BB Q]].
    + destruct (SS _ _ _ OS _ _ _ _ _ _ _ GD E1 I) as (H1 & he1 & hr1 & fp1 & d1 & A1 & W1 & GD1 & X1 & R1 & D1). rewrite A1.
      destruct hr1; try contradiction. rewrite (D1 eq_refl) in GD1. eapply B2; eauto.
    + injection Q as -> ->. destruct (B1 _ _ _ _ _ _ _ GD E1 BB) as (H1 & he1 & A1). rewrite A1. destruct r1; try contradiction; cbn [badH]; eauto.
  - intros G l nm x err y ys b G' OL NS IX IE IY IYS AR _ S H e he fp fz e' r GD E B.
    rewrite execs_cons in E. destruct (exec (SAssign l (ENew nm)) e) as [e1 r1] eqn:E1. rewrite hexecs_cons.
    assert (D : r1 = SNext \/ (bad r1 /\ (e', r) = (e1, r1))).
    { destruct r1; auto; right; inversion E; subst; auto. }
    destruct D as [->|[BB Q]].
    2: { injection Q as -> ->. destruct (bad_set G l (ENew nm) OL NS (or_intror eq_refl) _ _ _ _ _ _ _ GD E1 BB) as (H1 & he1 & A1). rewrite A1.
         destruct r1; try contradiction; cbn [badH]; eauto. }
    assert (SR : exists fs, eval e1 (lexpr l) = Ok (VStruct nm fs)).
    { cbn [GoLang.exec] in E1. apply lift_inv in E1 as (v & EV & E1); [|exact I]. apply lift_inv in E1 as (e1' & ST & E1); [|exact I]. inversion E1; subst.
      destruct (store_read types _ _ OL _ _ _ ST) as [ER _]. cbn [GoLang.eval] in EV. destruct (alookup nm types); [|discriminate]. inversion EV; subst. eauto. }
    destruct (sim_set ro self pl wide types call hcall n G l (ENew nm) OL NS (or_intror eq_refl) _ _ _ _ _ _ _ GD E1 I) as (H1 & he1 & hr1 & fp1 & d1 & A1 & _ & GD1 & X1 & R1 & D1).
    rewrite A1. destruct hr1; try contradiction. rewrite (D1 eq_refl) in GD1. clear D1 d1.
    rewrite execs_cons in E. destruct (exec (SParse x err l (EVar y) (map EVar ys)) e1) as [e2 r2] eqn:E2. rewrite hexecs_cons.
    assert (AV : forall v, eval e1 (lexpr l) = Ok v -> ariV ari v (List.length ys)).
    { destruct SR as [fs SR]. intros v Q. rewrite SR in Q. inversion Q. exact AR. }
    assert (D : r2 = SNext \/ (bad r2 /\ (e', r) = (e2, r2))).
    { destruct r2; auto; right; inversion E; subst; auto. }
    destruct D as [->|[BB Q]].
    + destruct (sim_parse ro self pl types call hcall n ari CR G x err l y ys OL IX IE IY IYS _ _ _ _ _ _ _ GD1 AV E2 I) as (H2 & he2 & hr2 & fp2 & A2 & GD2 & X2 & R2).
      rewrite A2. destruct hr2; try contradiction. eapply S; eauto.
    + injection Q as -> ->. destruct (bad_parse G x err l y ys OL IY IYS _ _ _ _ _ _ _ GD1 AV E2 BB) as (H2 & he2 & A2). rewrite A2.
      destruct r2; try contradiction; cbn [badH]; eauto.
  - intros G g r f c x body d b G' RO RX PC OB SB ND NR _ S.
    assert (WD : warm d) by (destruct (proj1 (proj2 (okS_ctx ari)) _ _ _ OB) as (d' & Q & W'); apply app_inv_tail in Q; now subst).
    apply (bad_fill G g r f x c body d); eauto.
  - intros G. split; intros ? ? [].
  - intros G c b G' cs PU _ SB _ [A B]. split.
    + intros c0 b0 [Q|Q]; [inversion Q; now subst|eauto].
    + intros o b0 [Q|Q]; [inversion Q; subst; eapply bad_block; eauto|eauto].
  - intros G b G' cs _ SB _ [A B]. split.
    + intros c0 b0 [Q|Q]; [discriminate|eauto].
    + intros o b0 [Q|Q]; [inversion Q; subst; eapply bad_block; eauto|eauto].
Qed.
End Sim.

Theorem call_bad : forall p ro pl, word pl = 8 -> methods_ok p -> forall n, callB (arity p) ro (callMethod p n) (hcallMethod pl p n).
Proof.
  intros p ro pl wide MO. induction n as [|m IH]; intros H recv d args hrecv hd hargs fp0 recv' r O ND RO IN SD SA AR C B.
  - cbn [callMethod] in C. destruct recv; try (inversion C; subst; discriminate B). destruct (alookup ty (pmethods p)) as [f|] eqn:LF; inversion C; subst; try discriminate B.
    destruct (own_struct_inv _ _ _ _ _ O) as (q & hfs & fp' & -> & -> & NQ & _). exists H. cbn [hcallMethod]. now rewrite NQ, LF.
  - cbn [callMethod] in C. destruct recv; try (inversion C; subst; discriminate B). destruct (alookup ty (pmethods p)) as [f|] eqn:LF; [|inversion C; subst; discriminate B].
    destruct (own_struct_inv _ _ _ _ _ O) as (q & hfs & fp' & -> & -> & NQ & NM & OS).
    destruct (MO _ _ LF) as (G' & OB). set (G0 := (frecv f, KSelf) :: ("data", KShr) :: paramsC (fparams f)) in *.
    set (e0 := (frecv f, VStruct ty fs) :: ("data", d) :: combine (fparams f) args) in *.
    destruct (execs (ptypes p) (callMethod p m) m (fbody f) e0) as [e1 r1] eqn:EX.
    assert (r1 = r) as -> by congruence. clear C.
    set (he0 := (frecv f, HPtr q) :: ("data", hd) :: combine (fparams f) hargs).
    assert (GD : good ro (HPtr q) H G0 e0 he0 ((q :: fp') ++ []) []).
    { constructor; auto.
      - apply envR_own; auto. apply envR_shr; auto. apply params_env; auto.
      - now rewrite app_nil_r.
      - intros l I. rewrite app_nil_r in I. auto. }
    destruct (proj1 (proj2 (bad_ok (arity p) ro (HPtr q) pl wide (ptypes p) _ _ m (call_sim p ro pl wide MO m) IH)) _ _ _ OB _ _ _ _ _ _ _ GD EX B)
      as (H1 & he1 & HX).
    exists H1. cbn [hcallMethod]. rewrite NQ, LF. fold he0. now rewrite HX.
Qed.
End Old.
