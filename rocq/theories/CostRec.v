(** What one generated Parse body costs when structs may contain themselves.

    The cost of a piece of code that takes [u] bytes is bounded by a constant plus
    [pay b u], which is nothing if no byte is taken and [KB * u - b] otherwise:
    the bytes taken pay for more than the code that takes them, by [b]. *)
From Coq Require Import ZArith String List Bool Lia.
From Coq Require Import ZifyBool ZifyNat.
From Verif Require Import Base Ast IntervalsModel InspectModel InspectSpec InspectProofs GoLang GenModel GenDecode GenCheck GenSim GenSimBody
  WireSpec WireComplete GenTerm GoCost CostGrow CostSpec CostDec CostBody.
Import ListNotations.
Open Scope string_scope.
Open Scope list_scope.
Open Scope Z_scope.
Ltac Zify.zify_post_hook ::= Z.div_mod_to_equations.

Definition pay (KB b u : Z) : Z := if u <=? 0 then 0 else KB * u - b.

Lemma pay_zero : forall KB b, pay KB b 0 = 0.
Proof. reflexivity. Qed.
Lemma pay_some : forall KB b u, 1 <= u -> pay KB b u = KB * u - b.
Proof. intros. unfold pay. now replace (u <=? 0) with false by lia. Qed.
Lemma pay_pos : forall KB b u, 0 <= b <= KB -> 0 <= pay KB b u.
Proof. intros. unfold pay. destruct (u <=? 0) eqn:E; nia. Qed.
Lemma pay_mono : forall KB b u v, 0 <= b <= KB -> u <= v -> pay KB b u <= pay KB b v.
Proof. intros. unfold pay. destruct (u <=? 0) eqn:E, (v <=? 0) eqn:F; nia. Qed.
Lemma pay_add : forall KB b u v, 0 <= b -> 0 <= u -> 0 <= v -> pay KB b u + pay KB b v <= pay KB b (u + v).
Proof.
  intros KB b u v B U V. unfold pay.
  destruct (u <=? 0) eqn:E; [replace u with 0 by lia; cbn [Z.add]; lia|].
  destruct (v <=? 0) eqn:F; [replace v with 0 by lia; rewrite !Z.add_0_r, E; lia|].
  replace (u + v <=? 0) with false by lia. lia.
Qed.
Lemma pay_anti : forall KB b b' u, b <= b' -> pay KB b' u <= pay KB b u.
Proof. intros. unfold pay. destruct (u <=? 0); lia. Qed.
Lemma pay_shift : forall KB b d u, 0 <= d -> pay KB (b - d) u <= d + pay KB b u.
Proof. intros. unfold pay. destruct (u <=? 0); lia. Qed.
Lemma pay_three : forall KB b u, 0 <= b -> b + 3 <= KB -> 0 <= u -> 3 * u <= pay KB b u.
Proof. intros. unfold pay. destruct (u <=? 0) eqn:E; nia. Qed.

Section Body.
Variable mem : account.
Variable camel : string -> string.
Variable r : resolver.
Variable types : amap (list (string * gtype)).
Variable call : callfun.
Variable ccost : value -> value -> list value -> Z.
Variable dcall : string -> amap value -> bytes -> outcome (value * bytes).
Variable n : nat.
Variable cenv : amap value.
Variable dat : bytes.
Variable rv ty : string.
Variable locs : list string.
Hypothesis Hlocs : In "cur" locs /\ In "data" locs /\ In "err" locs.
Hypothesis Hrv : ~ In rv locs.
Hypothesis Hcenv : forall x v, alookup x cenv = Some v -> ~ In x locs /\ x <> rv.
Hypothesis Hcall : forall nm s c, Struct r nm = Some s -> Extern s = false ->
  dcall nm cenv c = stuck \/
  exists fields args, ctxArgs cenv (scontexts s) = Ok args /\ alookup (camel nm) types = Some fields /\
    ressim (call (VStruct (camel nm) (zeros fields)) (VBytes c) args) (dcall nm cenv c).
Notation d := (blen dat).
Notation cost := (cost mem types call ccost n).
Notation costs := (costs mem types call ccost n).
Notation exec := (exec types call n).
Notation execs := (execs types call n).
Notation eval := (eval types).
Notation place := (place types).
Notation envok := (envok cenv dat).
Notation decBase := (decBase r dcall cenv d).

Hypothesis Hleft : forall nm ce c v c', blen c < two63 -> dcall nm ce c = Ok (v, c') -> blen c' <= blen c.
Hypothesis Hless : forall t c v c', eats (Constant r) (Struct r) t -> blen c < two63 ->
  decBase t c = Ok (v, c') -> blen c' < blen c.
Variable most : Z.
Variable inv : amap value -> bytes -> Prop.
Hypothesis Hmost : 0 <= most.
Hypothesis Hpart : forall fs c k, inv fs c -> inv fs (firstn k c).
Variable KB : Z.
Notation pay := (pay KB).

Lemma costs_step : forall s ss e a b, cost s e <= a -> (forall e1, costs ss e1 <= b) -> 0 <= b -> costs (s :: ss) e <= a + b.
Proof. intros s ss e a b A B N. rewrite costs_cons. destruct (exec s e) as [e1 []]; try specialize (B e1); lia. Qed.
Lemma costs_next : forall s ss e e1 a b, cost s e <= a -> exec s e = (e1, SNext) -> costs ss e1 <= b -> costs (s :: ss) e <= a + b.
Proof. intros s ss e e1 a b A E B. rewrite costs_cons, E. lia. Qed.

Lemma int_cost : forall sz cst L ss e, parseIntType r L sz cst = Ok ss -> plainE (lexpr L) = true -> esize (lexpr L) <= 4 ->
  costs ss e <= 30 + 15 * ranges cst.
Proof.
  intros sz cst L ss e H PL SL. unfold parseIntType in H. apply bind_ok in H as (check & Hc & H). injection H as <-.
  assert (FIN : forall e, costs [SAssign (LVar "cur") (EFrom cur (EInt (sz / 8)))] e <= 5).
  { intros e0. rewrite costs_cons, assign_cost by reflexivity. cbn [lexpr esize cur]. destruct (exec _ e0) as [? []]; rewrite ?costs_nil; lia. }
  assert (CH : forall e, costs (check ++ [SAssign (LVar "cur") (EFrom cur (EInt (sz / 8)))]) e <= 12 + 15 * ranges cst).
  { intros e0. destruct cst as [l|]; cbn [ranges].
    - apply bind_ok in Hc as (ce & Hc & E). injection E as <-. destruct (conditional_size _ _ _ _ Hc PL SL) as [C1 C2].
      cbn [app]. replace (12 + 15 * blen l) with (7 + 15 * blen l + 5) by lia.
      apply costs_step; [|exact FIN|lia]. etransitivity; [apply check_cost; cbn; auto|]. cbn [esize]. lia.
    - injection Hc as <-. cbn [app]. specialize (FIN e0). lia. }
  assert (0 <= ranges cst) by (destruct cst; cbn; [apply blen_nonneg|lia]).
  cbn [app]. replace (30 + 15 * ranges cst) with (10 + (8 + (12 + 15 * ranges cst))) by lia.
  apply costs_step; [etransitivity; [apply check_cost; reflexivity|cbn; lia]| |lia].
  intros e1. apply costs_step; [|exact CH|lia].
  destruct (sz / 8 =? 1); rewrite assign_cost by reflexivity; cbn [esize cur]; lia.
Qed.

Lemma scanned_index : forall c z, indexByte c z 0 <? 0 = false -> scanned c z = indexByte c z 0 + 1.
Proof. intros c z H. unfold scanned. now rewrite H. Qed.
Lemma scanned_le : forall c z, scanned c z <= blen c.
Proof. intros c z. unfold scanned. pose proof (indexByte_bound c z). destruct (indexByte c z 0 <? 0) eqn:E; lia. Qed.
Lemma alloc_le : forall k, 0 <= k -> 0 <= alloc mem k <= k.
Proof. intros k H. unfold alloc. destruct (withMemory mem); lia. Qed.

Lemma args_work : forall e c xs, GenSimBody.envok cenv dat e c -> fold_right (fun x t => work mem types e x + t) 0 (map EVar xs) = blen xs.
Proof.
  intros e c xs _. induction xs as [|x xs IH]; auto. cbn [map fold_right]. rewrite IH. unfold work, blen. cbn [esize extra List.length]. lia.
Qed.

(* ---------- lengths ---------- *)

Notation menv := (menv cenv dat rv ty).
Notation upd := (upd rv ty).

Lemma tail_cost : forall e, costs [assertEnd; SAssign (LVar "cur") (EVar "restore")] e <= 12.
Proof.
  intros e. replace 12 with (9 + 3) by lia. apply costs_step; [|intros e1|lia].
  - etransitivity; [apply check_cost; reflexivity|]. cbn. lia.
  - rewrite costs_cons, assign_cost by reflexivity. cbn [lexpr esize]. destruct (exec _ e1) as [? []]; rewrite ?costs_nil; lia.
Qed.

Lemma within_cost : forall {T} body dbody nx k X g e fs c, 0 <= X -> 0 <= g <= KB ->
  menv e fs c -> In "restore" locs -> k <= blen c -> blen c < two63 ->
  plainE nx = true -> esize nx <= 4 ->
  eval e nx = Ok (VInt k) -> (forall v, eval (("restore", v) :: e) nx = Ok (VInt k)) -> inv fs c ->
  (forall e1 c1, menv e1 fs c1 -> inv fs c1 -> blen c1 < two63 -> dbody c1 <> stuck -> costs body e1 <= X + pay g (used (dbody c1) c1)) ->
  decWithin k c dbody <> stuck ->
  costs ([SDecl "restore" (EFrom cur nx); SAssign (LVar "cur") (ETo cur nx)] ++ body ++
         [assertEnd; SAssign (LVar "cur") (EVar "restore")]) e
    <= X + pay g (used (@decWithin T k c dbody) c) + 28.
Proof.
  intros T body dbody nx k X g e fs c X0 G0 M LR KLE B PN SN E1 E2 IV HB NS.
  pose proof (blen_nonneg c) as BC.
  assert (U0 : 0 <= used (decWithin k c dbody) c).
  { unfold decWithin. destruct (blen c <? k); [exact BC|]. destruct (k <? 0) eqn:K0; [exact BC|].
    destruct (dbody _) as [[a c1]| | |]; cbn [bind used]; auto. destruct (0 <? blen c1); cbn [used]; auto.
    rewrite blen_skip; lia. }
  unfold decWithin in *. replace (blen c <? k) with false in * by lia.
  cbn [app]. rewrite costs_cons, decl_cost by (cbn; auto).
  cbn [GoLang.exec GoLang.eval]. change (eval e cur) with (eval e (EVar "cur")). rewrite (eval_cur types cenv dat _ _ (proj1 M)). cbn [bind]. rewrite E1. cbn [bind esize cur].
  destruct (k <? 0) eqn:K0.
  { cbn [orb lift]. pose proof (pay_pos KB g (used (Panic "slice bounds out of range" : outcome (T * bytes)) c) G0). match goal with |- _ <= _ + ?p + 28 => assert (0 <= p) by (apply pay_pos; auto) end. lia. }
  replace (blen c <? k) with false by lia. cbn [orb lift].
  set (rest := skipn (Z.to_nat k) c) in *. set (part := firstn (Z.to_nat k) c) in *.
  assert (M1 : menv (("restore", VBytes rest) :: e) fs c) by (eapply menv_push; eauto; discriminate).
  rewrite costs_cons, assign_cost by (cbn; auto). cbn [lexpr esize cur].
  rewrite (exec_assign_cur types call n cenv dat _ c _ (VBytes part)); [|apply M1|].
  2:{ cbn [GoLang.eval]. unfold cur. rewrite (eval_cur types cenv dat _ _ (proj1 M1)). cbn [bind]. rewrite E2. cbn [bind].
      rewrite K0. replace (blen c <? k) with false by lia. reflexivity. }
  rewrite assign_push by discriminate.
  assert (M2 : menv (("restore", VBytes rest) :: assign "cur" (VBytes part) e) fs part).
  { rewrite <- assign_push by discriminate. eapply menv_cur; eauto. }
  rewrite costs_app.
  assert (BP : blen part = k) by (apply blen_first; lia).
  specialize (HB _ _ M2 (Hpart _ _ _ IV) ltac:(lia) (stuck_bind _ _ NS)).
  assert (UU : used (dbody part) part <= used ('(a, c1) <- dbody part ;; if 0 <? blen c1 then Err "trailing data disallowed" else Ok (a, rest)) c).
  { destruct (dbody part) as [[a c1]| | |]; cbn [bind used]; try lia. pose proof (blen_nonneg c1).
    destruct (0 <? blen c1); cbn [used]; try lia. unfold rest. rewrite blen_skip by lia. lia. }
  match type of UU with ?u1 <= ?u => set (U := u) in *; set (U1 := u1) in * end.
  assert (pay g U1 <= pay g U) by (apply pay_mono; auto).
  destruct (execs body _) as [e3 []]; try pose proof (tail_cost e3); lia.
Qed.

Lemma refExpr_size : forall f, plainE (refExpr camel rv f) = true /\ esize (refExpr camel rv f) = 2.
Proof. intros f. unfold refExpr. destruct (String.eqb (rscope f) ""); auto. Qed.

Lemma constrained_cost : forall {T} body dbody l ss X g e fs c, 0 <= X -> 0 <= g <= KB ->
  constrained camel r rv l body = Ok ss -> menv e fs c -> In "restore" locs -> blen c < two63 -> inv fs c ->
  (forall e1 c1, menv e1 fs c1 -> inv fs c1 -> blen c1 < two63 -> dbody c1 <> stuck -> costs body e1 <= X + pay g (used (dbody c1) c1)) ->
  decConstr camel r cenv fs c l dbody <> stuck ->
  costs ss e <= X + pay g (used (@decConstr camel r cenv T fs c l dbody) c) + 40.
Proof.
  intros T body dbody l ss X g e fs c X0 G0 H M LR B IV HB NS. unfold constrained in H.
  apply bind_ok in H as ([check nx] & H1 & H). injection H as <-. pose proof (blen_nonneg c) as BC.
  destruct l as [f|i]; cbn [decConstr] in *.
  - injection H1 as <- <-. destruct (ref_cases camel cenv fs f) as [[x Hx]|Y]; [|rewrite Y in NS; exfalso; apply NS; reflexivity].
    rewrite Hx in *. cbn [bind] in *. destruct (refExpr_size f) as [R1 R2].
    assert (EV : forall e1, menv e1 fs c -> eval e1 (EToInt (refExpr camel rv f)) = Ok (VInt (s64 x))).
    { intros e1 M1. cbn [GoLang.eval]. rewrite (ref_eval camel types cenv dat rv ty _ _ _ _ _ M1 Hx). reflexivity. }
    cbn [app]. rewrite costs_cons.
    assert (C1 : cost (lengthCheck (EToInt (refExpr camel rv f))) e <= 10).
    { etransitivity; [apply check_cost; cbn; auto|]. cbn [esize cur]. lia. }
    destruct (blen c <? s64 x) eqn:D.
    + unfold decWithin. rewrite D. cbn [used].
      rewrite (check_fail camel r types call dcall n cenv dat rv ty locs Hcenv Hcall _ c _ (s64 x)); [|apply M|auto|lia]. pose proof (pay_pos KB g (blen c) G0). lia.
    + rewrite (check_pass camel r types call dcall n cenv dat rv ty locs Hcenv Hcall _ c _ (s64 x)); [|apply M|auto|lia].
      pose proof (within_cost body dbody (EToInt (refExpr camel rv f)) (s64 x) X g e fs c X0 G0 M LR ltac:(lia) B
        ltac:(cbn; auto) ltac:(cbn [esize]; lia) (EV e M)
        ltac:(intros v; apply EV; eapply menv_push; eauto; discriminate) IV HB NS) as W.
      cbn [app] in W. lia.
  - apply bind_ok in H1 as (k & Hk & H1). injection H1 as <- <-. rewrite Hk in *. cbn [bind] in *.
    unfold decLeaving in *. destruct (k <? 0) eqn:K0; [exfalso; apply NS; reflexivity|].
    cbn [app]. rewrite costs_cons.
    assert (C1 : cost (lengthCheck (EInt k)) e <= 10).
    { etransitivity; [apply check_cost; cbn; auto|]. cbn [esize cur]. lia. }
    destruct (blen c <? k) eqn:D.
    + cbn [used].
      rewrite (check_fail camel r types call dcall n cenv dat rv ty locs Hcenv Hcall _ c _ k); [|apply M|auto|lia]. pose proof (pay_pos KB g (blen c) G0). lia.
    + rewrite (check_pass camel r types call dcall n cenv dat rv ty locs Hcenv Hcall _ c _ k); [|apply M|auto|lia].
      assert (EV : forall e1, menv e1 fs c -> eval e1 (EBin BSub (ELen cur) (EInt k)) = Ok (VInt (s64 (blen c - k)))).
      { intros e1 M1. cbn [GoLang.eval]. unfold cur. rewrite (eval_cur types cenv dat _ _ (proj1 M1)). reflexivity. }
      pose proof (within_cost body dbody (EBin BSub (ELen cur) (EInt k)) (s64 (blen c - k)) X g e fs c X0 G0 M LR
        ltac:(rewrite s64_small; lia) B eq_refl ltac:(cbn; lia) (EV e M)
        ltac:(intros v; apply EV; eapply menv_push; eauto; discriminate) IV HB NS) as W.
      cbn [app] in W. lia.
Qed.

(* ---------- one bound for all the nested structs ---------- *)

Section Mode.
Variable A beta : Z.
Variable okn : string -> Prop.
Hypothesis A0 : 0 <= A.
Hypothesis Hbeta : 0 <= beta /\ beta + 3 <= KB.
Hypothesis Hcost : forall nm s c fields args, okn nm -> Struct r nm = Some s -> Extern s = false ->
  ctxArgs cenv (scontexts s) = Ok args -> alookup (camel nm) types = Some fields ->
  blen c < two63 -> dcall nm cenv c <> stuck ->
  ccost (VStruct (camel nm) (zeros fields)) (VBytes c) args + alloc mem (cellsOf fields) + blen (scontexts s)
    <= A + pay beta (used (dcall nm cenv c) c).
Notation rate := (rateT most r (fun _ => A)).

Lemma base_cost : forall t L pv root (P : place L pv root) ss e c w,
  parseType camel r rv L t = Ok ss -> checkBase r (map fst cenv) t = true ->
  envok e c -> pget _ _ _ _ P e = Some w ->
  ~ In "cur" pv -> root <> "data" -> (forall w, alookup root cenv <> Some w) ->
  (forall y, In y (localsT t) -> ~ In y pv /\ In y locs) ->
  plainE (lexpr L) = true -> esize (lexpr L) <= 4 -> (forall x, In x (structsT t) -> okn x) ->
  blen c < two63 -> decBase t c <> stuck ->
  costs ss e <= rate t + pay beta (used (decBase t c) c).
Proof.
  intros t L pv root P ss e c w H CB E G NC RD RC LT PL SL OK B NS.
  assert (U : 0 <= used (decBase t c) c).
  { apply used_nonneg. intros v c' X. eapply decBase_left; eauto. }
  pose proof (esize_pos (lexpr L)) as EP.
  assert (PP := pay_pos KB beta (used (decBase t c) c) ltac:(lia)).
  assert (P3 := pay_three KB beta (used (decBase t c) c) ltac:(lia) ltac:(lia) U).
  assert (RCU : root <> "cur") by (intros X; apply NC; rewrite <- X; apply (p_root _ _ _ _ P)).
  destruct t as [sz cst| | | |nm|b s|b cst]; cbn [checkBase] in CB; try discriminate; cbn [parseType] in H; cbn [rateT].
  - assert (0 <= ranges cst) by (destruct cst; cbn; [apply blen_nonneg|lia]).
    pose proof (int_cost _ _ _ _ e H PL SL). lia.
  - pose proof (int_cost _ _ _ _ e H PL SL). cbn [ranges] in *. lia.
  - injection H as <-. rewrite costs_cons, assign_cost by reflexivity. cbn [esize cur].
    destruct (exec _ e) as [? []]; rewrite ?costs_nil; lia.
  - injection H as <-. cbn [GenDecode.decBase] in *. unfold decNul in *.
    set (i := indexByte c 0 0) in *.
    assert (LI := LT "i" (or_introl eq_refl)).
    assert (K1 : envok (("i", VInt i) :: e) c) by (eapply envok_push; eauto; try discriminate; tauto).
    rewrite costs_cons. cbn [GoLang.exec GoLang.eval GoCost.cost]. change (eval e cur) with (eval e (EVar "cur")). rewrite (eval_cur types cenv dat _ _ E).
    cbn [bind lift]. fold i.
    assert (W1 : work mem types e (EIndexByte cur 0) = 2 + scanned c 0).
    { unfold work. unfold cur. cbn [esize extra]. rewrite (eval_cur types cenv dat _ _ E). lia. }
    rewrite W1. pose proof (scanned_le c 0) as SC. pose proof (blen_nonneg c).
    rewrite costs_cons, exec_if.
    assert (C2 : cost (SIf (EBin BLt (EVar "i") (EInt 0)) [retErr "could not parse nul-term string"]) (("i", VInt i) :: e) <= 7).
    { etransitivity; [apply check_cost; reflexivity|]. cbn. lia. }
    cbn [GoLang.eval bind evalBin lift alookup]. change (String.eqb "i" "i") with true. cbn [bind evalBin lift].
    revert PP P3 U NS. destruct (i <? 0) eqn:I0; intros PP P3 U NS.
    { cbn [used] in PP, P3, U. cbn [used]. unfold block. cbn [GoLang.execs GoLang.exec GoLang.eval bind lift retErr]. lia. }
    assert (IB : i < blen c) by (unfold i in *; pose proof (indexByte_bound c 0); lia).
    assert (SI : scanned c 0 = i + 1) by (apply scanned_index; exact I0).
    rewrite s64_small in * by lia.
    replace ((i + 1 <? 0) || (blen c <? i + 1)) with false in * by lia. cbn [used] in *.
    rewrite blen_skip in * by lia.
    rewrite costs_cons.
    assert (C3 : cost (SAssign2 L (LVar "cur") (EStringOf (ETo cur (EVar "i"))) (EFrom cur (EBin BAdd (EVar "i") (EInt 1)))) (("i", VInt i) :: e)
                 <= 15 + 2 * i).
    { cbn [GoCost.cost lexpr]. unfold work. cbn [esize extra cur].
      assert (E1 : eval (("i", VInt i) :: e) (ETo cur (EVar "i")) = Ok (VBytes (firstn (Z.to_nat i) c))).
      { cbn [GoLang.eval]. unfold cur. rewrite (eval_cur types cenv dat _ _ K1). cbn [bind alookup].
        change (String.eqb "i" "i") with true. cbn [bind].
        now replace ((i <? 0) || (blen c <? i)) with false by lia. }
      rewrite E1, blen_first by lia. pose proof (alloc_le i ltac:(lia)). lia. }
    destruct (exec _ (("i", VInt i) :: e)) as [? []]; rewrite ?costs_nil; lia.
  - destruct (Struct r nm) as [s|] eqn:HS; [|discriminate]. injection H as <-.
    assert (EX : Extern s = false) by (destruct (Extern s); [discriminate CB|auto]).
    cbn [GenDecode.decBase] in *.
    destruct (Hcall nm s c HS EX) as [X|(fields & args & HA & HF & HR)]; [contradiction|].
    pose proof (Hcost nm s c fields args (OK nm (or_introl eq_refl)) HS EX HA HF B NS) as CC.
    assert (LE := LT "err" (or_introl eq_refl)).
    assert (G1 : pget _ _ _ _ P (("err", VNil) :: e) = Some w) by (rewrite p_push_get; [auto|tauto]).
    assert (K1 : envok (("err", VNil) :: e) c) by (eapply envok_push; eauto; try discriminate; tauto).
    rewrite costs_cons. cbn [GoLang.exec zero]. change (cost (SVar "err" GError) e) with 1.
    rewrite costs_cons.
    rewrite (exec_assign types call n _ _ _ _ P _ (VStruct (camel nm) (zeros fields)) w) by
      (auto; cbn [GoLang.eval]; rewrite HF; reflexivity).
    rewrite p_push_set by tauto.
    set (e2 := pset _ _ _ _ P e (VStruct (camel nm) (zeros fields))).
    assert (G2 : pget _ _ _ _ P e2 = Some (VStruct (camel nm) (zeros fields))) by (eapply p_get_set; eauto).
    assert (K2 : envok (("err", VNil) :: e2) c).
    { unfold e2. rewrite <- (p_push_set _ _ _ _ P) by tauto. apply envok_place; auto. }
    assert (G2' : pget _ _ _ _ P (("err", VNil) :: e2) = Some (VStruct (camel nm) (zeros fields)))
      by (rewrite p_push_get; [auto|tauto]).
    assert (C2 : cost (SAssign L (ENew (camel nm))) (("err", VNil) :: e) = 2 + esize (lexpr L) + alloc mem (cellsOf fields)).
    { cbn [GoCost.cost]. unfold work. cbn [esize extra]. rewrite HF. lia. }
    rewrite C2, costs_cons.
    assert (C3 : cost (SParse "cur" "err" L cur (map EVar (scontexts s))) (("err", VNil) :: e2) =
                 2 + esize (lexpr L) + blen (scontexts s) + ccost (VStruct (camel nm) (zeros fields)) (VBytes c) args).
    { cbn [GoCost.cost]. rewrite (p_eval _ _ _ _ P _ _ G2'). change (eval (("err", VNil) :: e2) cur) with (eval (("err", VNil) :: e2) (EVar "cur")). rewrite (eval_cur types cenv dat _ _ K2), (mapM_ctx types cenv dat _ _ _ _ K2 HA).
      rewrite (args_work _ _ _ K2). rewrite plain_work by auto. unfold work, cur. cbn [esize extra]. lia. }
    rewrite C3.
    assert (C4 : forall e, costs [SIf (ENotNil (EVar "err")) [SReturn ENil (EVar "err")]] e <= 6).
    { intros e0. rewrite costs_cons, cost_if, plain_work by reflexivity. cbn [esize].
      assert (R3 : costs [SReturn ENil (EVar "err")] e0 = 3) by (rewrite costs_cons; change (cost (SReturn ENil (EVar "err")) e0) with 3; destruct (exec _ e0) as [? []]; reflexivity).
      rewrite R3.
      destruct (GoLang.eval types e0 (ENotNil (EVar "err"))) as [[| | | | | | |[]]| | |]; destruct (exec _ e0) as [? []]; rewrite ?costs_nil; lia. }
    destruct (exec (SParse _ _ _ _ _) _) as [e3 []]; try specialize (C4 e3); lia.
Qed.

(* ---------- arrays ---------- *)

Lemma base_rate : forall t, checkBase r (map fst cenv) t = true -> 30 <= rate t.
Proof using A0.
  clear - A0.
  intros t H. destruct t as [sz cst| | | |nm|b i|b l]; cbn [rateT checkBase] in *; try discriminate; try lia.
  assert (0 <= ranges cst) by (destruct cst; cbn; [apply blen_nonneg|lia]). lia.
Qed.

Section Arr.
Variable L : lval.
Variable pv : list string.
Variable root : string.
Variable P : place L pv root.
Hypothesis NC : ~ In "cur" pv.
Hypothesis RD : root <> "data".
Hypothesis RC : forall w, alookup root cenv <> Some w.
Hypothesis PL : plainE (lexpr L) = true.
Hypothesis SL : esize (lexpr L) <= 2.
Notation get := (pget _ _ _ _ P).
Notation set := (pset _ _ _ _ P).

Lemma for_cost : forall t body bound (HI : ~ In "idx" pv) k q z g,
  parseType camel r rv (LIdx L (EVar "idx")) t = Ok body ->
  checkBase r (map fst cenv) t = true -> (forall x, In x (structsT t) -> okn x) ->
  In "idx" locs ->
  (forall y, In y (localsT t) -> ~ In y ("idx" :: pv) /\ In y locs) ->
  0 <= k < two63 -> plainE bound = true -> esize bound <= 3 ->
  0 <= q -> 0 <= z -> 0 <= g <= beta -> rate t <= q + z ->
  (forall c v c', blen c < two63 -> decBase t c = Ok (v, c') ->
     rate t + pay beta (blen c - blen c') + 10 <= q + pay g (blen c - blen c')) ->
  forall e0, (forall i c v, eval (("idx", VInt i) :: assign "cur" (VBytes c) (set e0 v)) bound = Ok (VInt k)) ->
  forall m i c0 c l w, envok e0 c0 -> get e0 = Some w -> blen l = k -> 0 <= i <= k -> blen c < two63 ->
  decFor r dcall cenv d m t (k - i) c <> stuck ->
  costFor mem types call ccost n "idx" bound body m (("idx", VInt i) :: assign "cur" (VBytes c) (set e0 (VList l)))
    <= q * (k - i) + pay g (used (decFor r dcall cenv d m t (k - i) c) c) + 10 + z.
Proof.
  intros t body bound HI k q z g PT CB OK LI LT HK' PB SB Q Z0 GB QZ HQ e0 HB.
  assert (RI : "idx" <> root) by (intros E; apply HI; rewrite E; apply (p_root _ _ _ _ P)).
  assert (RCU : root <> "cur") by (intros X; apply NC; rewrite <- X; apply (p_root _ _ _ _ P)).
  pose proof (base_rate t CB) as BR.
  induction m as [|m IH]; intros i c0 c l w K0' G BL I B NS; cbn [decFor costFor] in *.
  - set (e := ("idx", VInt i) :: assign "cur" (VBytes c) (set e0 (VList l))).
    rewrite plain_work by (cbn; auto). cbn [esize].
    cbn [GoLang.eval]. unfold e at 1. cbn [alookup]. change (String.eqb "idx" "idx") with true. cbn [bind].
    unfold e at 1. rewrite HB. cbn [bind evalBin].
    pose proof (blen_nonneg c).
    match goal with |- context [used ?o c] => assert (0 <= used o c) by (destruct (k - i <=? 0); cbn [used]; lia); set (U := used o c) in * end.
    assert (0 <= q * (k - i)) by nia. assert (0 <= pay g U) by (apply pay_pos; lia).
    destruct (i <? k); lia.
  - set (e := ("idx", VInt i) :: assign "cur" (VBytes c) (set e0 (VList l))).
    rewrite plain_work by (cbn; auto). cbn [esize].
    cbn [GoLang.eval]. unfold e at 1. cbn [alookup]. change (String.eqb "idx" "idx") with true. cbn [bind].
    unfold e at 1. rewrite HB. cbn [bind evalBin].
    destruct (k - i <=? 0) eqn:D.
    + replace (i <? k) with false by lia. cbn [used]. replace (k - i) with 0 by lia. rewrite Z.sub_diag, pay_zero. lia.
    + replace (i <? k) with true by lia.
      assert (K0 : envok (assign "cur" (VBytes c) (set e0 (VList l))) c)
        by (eapply envok_cur; eauto; apply envok_place; eauto).
      assert (K1 : envok e c) by (eapply envok_push; eauto; discriminate).
      assert (G0 : get (set e0 (VList l)) = Some (VList l)) by (eapply p_get_set; eauto).
      assert (G1 : get e = Some (VList l)).
      { unfold e. rewrite p_push_get, p_assign_get by auto. auto. }
      destruct (nthZ_some l i) as [u Hu]; [lia|].
      assert (G2 : pget _ _ _ _ (idxPlace types P HI) e = Some u).
      { cbn [idxPlace pget]. unfold idxGet. rewrite G1. unfold e. cbn [alookup].
        change (String.eqb "idx" "idx") with true. cbn iota. exact Hu. }
      assert (NC' : ~ In "cur" ("idx" :: pv)) by (intros [E|E]; [discriminate|auto]).
      pose proof (base_sim camel r types call dcall n cenv dat rv ty locs Hlocs Hcenv Hcall t _ _ _ (idxPlace types P HI) body e c u PT CB K1 G2 NC' RD RC LT) as S.
      pose proof (base_cost t _ _ _ (idxPlace types P HI) body e c u PT CB K1 G2 NC' RD RC LT
        ltac:(cbn [lexpr plainE]; now rewrite PL) ltac:(cbn [lexpr esize]; lia) OK B (stuck_bind _ _ NS)) as CC.
      pose proof (blen_nonneg c).
      unfold block. destruct (execs body e) as [e1 res].
      destruct (decBase t c) as [[v c1]|er|pm|] eqn:DB; cbn [sim bind fst snd used] in S, NS, CC |- *.
      * destruct S as (pre & Hpre & E). injection E as -> ->.
        assert (PS : idxSet types P e v =
                     ("idx", VInt i) :: assign "cur" (VBytes c) (set e0 (VList (updN l (Z.to_nat i) v)))).
        { unfold idxSet. rewrite G1. unfold e at 1. cbn [alookup].
          change (String.eqb "idx" "idx") with true. cbn iota. unfold e.
          rewrite p_push_set, p_assign_set by auto. now rewrite (p_set_set _ _ _ _ P _ _ _ _ G). }
        cbn [idxPlace pset]. rewrite PS. rewrite assign_push by discriminate. rewrite assign_assign.
        rewrite leave_app by (unfold e; cbn [List.length]; rewrite !assign_len, !p_len; reflexivity).
        rewrite plain_work by reflexivity. cbn [esize].
        cbn [alookup]. change (String.eqb "idx" "idx") with true. cbn [bind evalBin lift assign].
        change (String.eqb "idx" "idx") with true. cbn iota.
        rewrite s64_small by (unfold two63 in *; lia).
        pose proof (HQ _ _ _ B DB) as HQ1. pose proof (decBase_left r dcall cenv dat Hleft t c v c1 B DB) as LE.
        replace (k - i - 1) with (k - (i + 1)) in * by lia.
        assert (BL' : blen (updN l (Z.to_nat i) v) = k) by (unfold blen in *; rewrite updN_len; auto).
        specialize (IH (i + 1) c0 c1 (updN l (Z.to_nat i) v) w K0' G BL' ltac:(lia) ltac:(lia) (stuck_bind _ _ NS)).
        assert (UE : used (bind (decFor r dcall cenv d m t (k - (i + 1)) c1) (fun '(vs, c2) => Ok (v :: vs, c2))) c
                     = blen c - blen c1 + used (decFor r dcall cenv d m t (k - (i + 1)) c1) c1 \/
                     used (bind (decFor r dcall cenv d m t (k - (i + 1)) c1) (fun '(vs, c2) => Ok (v :: vs, c2))) c
                     >= blen c - blen c1 + used (decFor r dcall cenv d m t (k - (i + 1)) c1) c1).
        { destruct (decFor r dcall cenv d m t (k - (i + 1)) c1) as [[vs c2]| | |]; cbn [bind used]; lia. }
        assert (UN : 0 <= used (decFor r dcall cenv d m t (k - (i + 1)) c1) c1).
        { apply used_nonneg. intros v' c' X. eapply decFor_left; eauto. lia. }
        unfold e in CC |- *. cbn [app] in *.
        set (U := used (bind _ _) c) in *. set (U1 := used (decFor r dcall cenv d m t (k - (i + 1)) c1) c1) in *.
        assert (pay g (blen c - blen c1) + pay g U1 <= pay g U).
        { etransitivity; [apply pay_add; lia|]. apply pay_mono; lia. }
        lia.
      * unfold leave in *. destruct S as (e' & E). injection E as -> ->. pose proof (pay_anti KB g beta (blen c) ltac:(lia)). nia.
      * destruct S as [->|(e' & E)]; [exfalso; apply NS; reflexivity|]. injection E as -> ->. pose proof (pay_anti KB g beta (blen c) ltac:(lia)). nia.
      * destruct S as (e' & E). injection E as -> ->. pose proof (pay_anti KB g beta (blen c) ltac:(lia)). nia.
Qed.

Lemma while_cost : forall t body g (HT : ~ In "tmp" pv),
  parseType camel r rv (LVar "tmp") t = Ok body ->
  checkBase r (map fst cenv) t = true -> (forall x, In x (structsT t) -> okn x) ->
  eats (Constant r) (Struct r) t -> rate t + 36 <= beta ->
  In "tmp" locs ->
  (forall y, In y (localsT t) -> y <> "tmp" /\ ~ In y pv /\ In y locs) ->
  forall e0 m c0 c l w, envok e0 c0 -> get e0 = Some w -> blen c < two63 ->
  decWhile r dcall cenv d m t c <> stuck ->
  costWhile mem types call ccost n (EBin BGt (ELen cur) (EInt 0))
         ([SVar "tmp" g] ++ body ++ [SAssign L (EAppend (lexpr L) (EVar "tmp"))]) m
         (assign "cur" (VBytes c) (set e0 (VList l)))
    <= pay (beta - (rate t + 36)) (used (decWhile r dcall cenv d m t c) c) + 10 + saved mem (blen l).
Proof.
  intros t body g HT PT CB OK EA RB LTm LT e0.
  assert (RCU : root <> "cur") by (intros X; apply NC; rewrite <- X; apply (p_root _ _ _ _ P)).
  pose proof (base_rate t CB) as BR.
  induction m as [|m IH]; intros c0 c l w K0 G B NS; cbn [decWhile costWhile] in *.
  all: assert (PP : forall u, 0 <= pay (beta - (rate t + 36)) u) by (intros u; apply pay_pos; lia).
  all: pose proof (saved_nonneg mem (blen l) (blen_nonneg l)) as SV.
  all: assert (K1 : envok (assign "cur" (VBytes c) (set e0 (VList l))) c)
        by (eapply envok_cur; eauto; apply envok_place; eauto).
  all: rewrite plain_work by reflexivity; cbn [esize cur].
  all: assert (ET : eval (assign "cur" (VBytes c) (set e0 (VList l))) (EBin BGt (ELen cur) (EInt 0)) = Ok (VBool (0 <? blen c)))
        by (cbn [GoLang.eval]; unfold cur at 1; rewrite (eval_cur types cenv dat _ _ K1); reflexivity).
  all: rewrite ET; pose proof (blen_nonneg c).
  - destruct (0 <? blen c); destruct (blen c <=? 0) eqn:D; cbn [used] in *; pose proof (PP (blen c)); pose proof (PP (blen c - blen c)); lia.
  - destruct (blen c <=? 0) eqn:D.
    + replace (0 <? blen c) with false by lia. cbn [used]. specialize (PP (blen c - blen c)). lia.
    + replace (0 <? blen c) with true by lia.
      set (e := assign "cur" (VBytes c) (set e0 (VList l))) in *.
      assert (G0 : get (set e0 (VList l)) = Some (VList l)) by (eapply p_get_set; eauto).
      assert (G1 : get e = Some (VList l)) by (unfold e; rewrite p_assign_get; auto).
      assert (K2 : envok (("tmp", zero g) :: e) c) by (eapply envok_push; eauto; discriminate).
      assert (TC : forall w, alookup "tmp" cenv <> Some w).
      { intros u Hu. apply Hcenv in Hu. tauto. }
      assert (LT' : forall y, In y (localsT t) -> ~ In y ["tmp"] /\ In y locs).
      { intros y Hy. destruct (LT y Hy) as (A1 & B0 & C). split; auto. intros [E|[]]; auto. }
      assert (GT : pget _ _ _ _ (varPlace types "tmp") (("tmp", zero g) :: e) = Some (zero g)) by reflexivity.
      assert (NT : ~ In "cur" ["tmp"]) by (intros [E|[]]; discriminate).
      pose proof (base_sim camel r types call dcall n cenv dat rv ty locs Hlocs Hcenv Hcall t _ _ _ (varPlace types "tmp") body (("tmp", zero g) :: e) c (zero g) PT CB K2 GT NT
                    ltac:(discriminate) TC LT') as S.
      pose proof (base_cost t _ _ _ (varPlace types "tmp") body (("tmp", zero g) :: e) c (zero g) PT CB K2 GT NT
                    ltac:(discriminate) TC LT' eq_refl ltac:(cbn; lia) OK B (stuck_bind _ _ NS)) as CC.
      unfold block. cbn [app]. rewrite costs_cons, execs_cons. cbn [GoLang.exec]. change (cost (SVar "tmp" g) e) with 1.
      rewrite costs_app, execs_app.
      assert (CA : forall e9, eval e9 (lexpr L) = Ok (VList l) -> costs [SAssign L (EAppend (lexpr L) (EVar "tmp"))] e9 <= 7 + moving mem (blen l)).
      { intros e9 EL. rewrite costs_cons. cbn [GoCost.cost]. unfold work. cbn [esize extra]. rewrite (plain_extra mem types e9 _ PL), EL.
        destruct (exec _ e9) as [? []]; rewrite ?costs_nil; lia. }
      destruct (execs body (("tmp", zero g) :: e)) as [e1 res].
      destruct (decBase t c) as [[v c1]|er|pm|] eqn:DB; cbn [sim bind fst snd used] in S, NS, CC |- *.
      * destruct S as (pre & Hpre & E). injection E as -> ->. cbn [varPlace pset assign].
        change (String.eqb "tmp" "tmp") with true. cbn iota.
        set (e2 := assign "cur" (VBytes c1) (set e0 (VList l))).
        replace (assign "cur" (VBytes c1) e) with e2 by (unfold e, e2; now rewrite assign_assign).
        assert (PT' : forall y, In y (map fst pre) -> y <> "tmp" /\ ~ In y pv) by (intros y Hy; apply Hpre, LT in Hy; tauto).
        assert (G2 : get (pre ++ ("tmp", v) :: e2) = Some (VList l)).
        { rewrite p_app_get by (intros y Hy; apply PT'; auto). rewrite p_push_get by auto. unfold e2. rewrite p_assign_get; auto. }
        assert (CA1 := CA (pre ++ ("tmp", v) :: e2) (p_eval _ _ _ _ P _ _ G2)). rewrite (saved_succ mem (blen l) (blen_nonneg l)) in CA1.
        rewrite execs_cons, (exec_assign types call n _ _ _ _ P _ (VList (l ++ [v])) (VList l)); auto.
        2:{ cbn [GoLang.eval]. rewrite (p_eval _ _ _ _ P _ _ G2). cbn [bind].
            rewrite alookup_app_notin by (intros Hy; apply PT' in Hy; tauto). reflexivity. }
        rewrite p_app_set by (intros y Hy; apply PT'; auto). rewrite p_push_set by auto.
        cbn [GoLang.execs]. change (pre ++ ("tmp", v) :: set e2 (VList (l ++ [v]))) with (pre ++ [("tmp", v)] ++ set e2 (VList (l ++ [v]))).
        rewrite app_assoc.
        rewrite leave_app by (unfold e2, e; rewrite !p_len, !assign_len, !p_len; reflexivity).
        unfold e2 at 2. rewrite p_assign_set by auto. rewrite (p_set_set _ _ _ _ P _ _ _ _ G).
        pose proof (Hless _ _ _ _ EA B DB) as LE.
        specialize (IH c0 c1 (l ++ [v]) w K0 G ltac:(lia) (stuck_bind _ _ NS)). cbn [app] in IH.
        assert (BL1 : blen (l ++ [v]) = blen l + 1) by (unfold blen; rewrite app_length; cbn [List.length]; lia). rewrite BL1 in IH.
        assert (UE : blen c - blen c1 + used (decWhile r dcall cenv d m t c1) c1 <=
                     used (bind (decWhile r dcall cenv d m t c1) (fun '(vs, c2) => Ok (v :: vs, c2))) c).
        { destruct (decWhile r dcall cenv d m t c1) as [[vs c2]| | |]; cbn [bind used]; lia. }
        set (U := used (bind _ _) c) in *. set (U1 := used (decWhile r dcall cenv d m t c1) c1) in *.
        assert (UN : 0 <= U1).
        { apply used_nonneg. intros v' c' X. pose proof (decWhile_left r dcall cenv dat Hleft m t c1 _ _ X). pose proof (blen_nonneg c1). lia. }
        assert (pay (beta - (rate t + 36)) (blen c - blen c1) + pay (beta - (rate t + 36)) U1 <= pay (beta - (rate t + 36)) U).
        { etransitivity; [apply pay_add; lia|]. apply pay_mono; lia. }
        rewrite (pay_some KB (beta - (rate t + 36)) (blen c - blen c1)) in * by lia. rewrite (pay_some KB beta) in * by lia.
        lia.
      * destruct S as (e' & E). injection E as -> ->. rewrite pay_some in * by lia. lia.
      * destruct S as [->|(e' & E)]; [exfalso; apply NS; reflexivity|]. injection E as -> ->. rewrite pay_some in * by lia. lia.
      * destruct S as (e' & E). injection E as -> ->. rewrite pay_some in * by lia. lia.
Qed.
End Arr.

(* ---------- fields ---------- *)

(** Elements of arrays take bytes; the length of an array is at most [most]. *)
Definition frugal (t : type) : Prop :=
  match t with
  | TVar b (Some (LRef f)) => (withMemory mem = true -> forall fs c x, inv fs c -> refVal camel fs cenv f = Ok x -> s64 x <= most) /\
                              eats (Constant r) (Struct r) b
  | TVar b _ => eats (Constant r) (Struct r) b
  | _ => True
  end.

Lemma type_cost : forall F t ss e fs c w,
  parseType camel r rv (LField (LVar rv) F) t = Ok ss ->
  simType camel r cenv F t -> incl (localsT t) locs -> frugal t -> (forall x, In x (structsT t) -> okn x) -> rate t <= beta ->
  menv e fs c -> alookup F fs = Some w -> shapeOf r t w -> inv fs c ->
  blen c < two63 -> decType camel r dcall n cenv d fs t c <> stuck ->
  costs ss e <= rate t + pay beta (used (decType camel r dcall n cenv d fs t c) c).
Proof.
  intros F t ss e fs c w H ST LT FR OK RB M HF SH IV B NS.
  destruct (field_place types rv F) as (P & PG0 & PS0).
  pose proof (blen_nonneg c) as BC.
  assert (RCU : rv <> "cur") by (intros E; apply Hrv; rewrite E; tauto). assert (RDA : rv <> "data") by (intros E; apply Hrv; rewrite E; tauto).
  assert (RCE : forall v, alookup rv cenv <> Some v) by (intros v E; apply Hcenv in E; tauto).
  assert (NC : ~ In "cur" [rv]) by (intros [E|[]]; apply RCU; auto).
  assert (PG : forall e1 c1 fs1, menv e1 fs1 c1 -> pget _ _ _ _ P e1 = alookup F fs1).
  { intros e1 c1 fs1 [_ R]. rewrite PG0. unfold fieldGet. now rewrite R. }
  assert (PS : forall e1 c1 fs1 v, menv e1 fs1 c1 -> pset _ _ _ _ P e1 v = assign rv (VStruct ty (assign F v fs1)) e1).
  { intros. rewrite PS0. eapply field_set; eauto. }
  assert (LP : forall y, In y locs -> ~ In y [rv]) by (intros y I [<-|[]]; tauto).
  assert (G : pget _ _ _ _ P e = Some w) by (rewrite (PG _ _ _ M); auto).
  assert (PL : plainE (lexpr (LField (LVar rv) F)) = true) by reflexivity.
  assert (SL : esize (lexpr (LField (LVar rv) F)) <= 2) by (cbn; lia).
  assert (BASE : checkBase r (map fst cenv) t = true -> decBase t c <> stuck ->
    costs ss e <= rate t + pay beta (used (decBase t c) c)).
  { intros CB NB.
    assert (LT2 : forall y, In y (localsT t) -> ~ In y [rv] /\ In y locs) by (intros y I; split; auto).
    apply (base_cost t _ _ _ P ss e c w H CB (proj1 M) G NC RDA RCE LT2 PL ltac:(lia) OK B NB). }
  destruct t as [sz cst| | | |nm|b s|b cst]; try (apply BASE; [exact ST|exact NS]).
  - (* fixed *)
    clear BASE. cbn [simType shapeOf localsT] in *. destruct ST as [CB GC]. destruct SH as (l & -> & LK).
    cbn [parseType] in H. apply bind_ok in H as (k & Hk & H). apply bind_ok in H as (body & Hb & H). injection H as <-.
    specialize (LK _ Hk). cbn [decType] in *. rewrite Hk in *. cbn [bind] in *.
    assert (KBD : 0 <= k < two63 /\ countOf r s = k).
    { unfold goodCount in GC. unfold countOf. apply integerOf_value in Hk. rewrite Hk in *. split; [lia|auto]. }
    destruct KBD as [KBD KC].
    assert (HI : ~ In "idx" [rv]) by (apply LP, LT; cbn; auto).
    assert (LT2 : forall y, In y (localsT b) -> ~ In y ["idx"; rv] /\ In y locs).
    { intros y I. assert (In y locs) by (apply LT; cbn; auto). split; auto. intros [E|E]; [|apply (LP y); auto].
      subst y. destruct (checkBase_locals r cenv locs Hlocs _ _ CB I); discriminate. }
    pose proof (base_rate b CB) as BR.
    pose proof (for_cost _ _ _ P NC RDA RCE PL SL b body (EInt k) HI k (rate b + 10) 0 beta Hb CB OK
                  (LT "idx" (or_introl eq_refl)) LT2 KBD eq_refl ltac:(cbn; lia) ltac:(lia) ltac:(lia) ltac:(lia) ltac:(lia)
                  ltac:(intros; lia) e ltac:(reflexivity) n 0 c c l (VList l) (proj1 M) G LK ltac:(lia) B) as S.
    replace (k - 0) with k in S by lia. specialize (S (stuck_bind _ _ NS)).
    assert (E0 : assign "cur" (VBytes c) (pset _ _ _ _ P e (VList l)) = e).
    { rewrite (PS _ _ _ _ M). rewrite (assign_same F) by auto. apply (upd_id _ _ _ _ _ _ _ M). }
    rewrite E0 in S. rewrite costs_cons, cost_for. cbn [rateT]. rewrite KC.
    assert (UE : used ('(vs, c1) <- decFor r dcall cenv d n b k c ;; Ok (VList vs, c1)) c = used (decFor r dcall cenv d n b k c) c).
    { destruct (decFor r dcall cenv d n b k c) as [[vs c1]| | |]; reflexivity. }
    assert (U0 : 0 <= used (decFor r dcall cenv d n b k c) c).
    { apply used_nonneg. intros v' c' X. eapply decFor_left; eauto. }
    assert (UZ : k = 0 -> used (decFor r dcall cenv d n b k c) c = 0).
    { intros ->. destruct n; cbn [decFor]; cbn; lia. }
    rewrite UE. set (U := used (decFor r dcall cenv d n b k c) c) in *.
    destruct (exec _ e) as [e1 []]; rewrite ?costs_nil; nia.
  - (* variable *)
    clear BASE SH.
    assert (RB' : 80 + 2 * rate b <= beta) by (destruct cst as [[]|]; cbn [rateT] in RB; lia).
    assert (WH : forall g body e1 c1, checkBase r (map fst cenv) b = true -> incl ("tmp" :: localsT b) locs ->
      eats (Constant r) (Struct r) b ->
      parseType camel r rv (LVar "tmp") b = Ok body -> menv e1 fs c1 -> blen c1 < two63 ->
      ('(vs, c2) <- decWhile r dcall cenv d n b c1 ;; Ok (VList vs, c2)) <> stuck ->
      costs [SAssign (LField (LVar rv) F) (EMake g (EInt 0));
          SWhile (EBin BGt (ELen cur) (EInt 0))
            ([SVar "tmp" g] ++ body ++
             [SAssign (LField (LVar rv) F) (EAppend (lexpr (LField (LVar rv) F)) (EVar "tmp"))])] e1
        <= (40 + 2 * rate b) + pay beta (used ('(vs, c2) <- decWhile r dcall cenv d n b c1 ;; Ok (VList vs, c2)) c1)).
    { intros g body e1 c1 CB LT1 EA Hb M1 B1 NS1. pose proof (base_rate b CB) as BR.
      assert (G1 : pget _ _ _ _ P e1 = Some w) by (rewrite (PG _ _ _ M1); auto).
      rewrite costs_cons, (exec_assign types call n _ _ _ _ P _ (VList []) w) by auto.
      assert (C1 : cost (SAssign (LField (LVar rv) F) (EMake g (EInt 0))) e1 <= 8).
      { cbn [GoCost.cost]. unfold work. cbn [esize extra lexpr].
        assert (EM : eval e1 (EMake g (EInt 0)) = Ok (VList [])) by reflexivity. rewrite EM. cbn [blen List.length].
        change (blen []) with 0. unfold alloc. destruct (withMemory mem); lia. }
      rewrite costs_cons, cost_while.
      assert (HT : ~ In "tmp" [rv]) by (apply LP, LT1; cbn; auto).
      assert (LT2 : forall y, In y (localsT b) -> y <> "tmp" /\ ~ In y [rv] /\ In y locs).
      { intros y I. assert (In y locs) by (apply LT1; cbn; auto). repeat split; auto.
        intros ->. destruct (checkBase_locals r cenv locs Hlocs _ _ CB I); discriminate. }
      pose proof (while_cost _ _ _ P NC RDA RCE PL SL b body g HT Hb CB OK EA ltac:(lia) (LT1 "tmp" (or_introl eq_refl)) LT2
                    e1 n c1 c1 [] w (proj1 M1) G1 B1 (stuck_bind _ _ NS1)) as S.
      assert (E0 : assign "cur" (VBytes c1) (pset _ _ _ _ P e1 (VList [])) = pset _ _ _ _ P e1 (VList [])).
      { apply assign_same. rewrite (PS _ _ _ _ M1). rewrite alookup_assign_other by (intros E; apply RCU; auto).
        apply (ek_cur _ _ _ _ (proj1 M1)). }
      rewrite E0 in S.
      assert (UE : used ('(vs, c2) <- decWhile r dcall cenv d n b c1 ;; Ok (VList vs, c2)) c1 = used (decWhile r dcall cenv d n b c1) c1).
      { destruct (decWhile r dcall cenv d n b c1) as [[vs c2]| | |]; reflexivity. }
      assert (U0 : 0 <= used (decWhile r dcall cenv d n b c1) c1).
      { apply used_nonneg. intros v' c' X. pose proof (decWhile_left r dcall cenv dat Hleft n b c1 _ _ X). pose proof (blen_nonneg c1). lia. }
      rewrite UE. set (U := used (decWhile r dcall cenv d n b c1) c1) in *.
      pose proof (pay_shift KB beta (rate b + 36) U ltac:(lia)). change (blen (@nil value)) with 0 in S. rewrite saved_zero in S.
      destruct (exec _ _) as [e2 []]; rewrite ?costs_nil; lia. }
    destruct cst as [[f|i]|]; cbn [simType localsT frugal rateT] in *; cbn [parseType] in H; cbn [decType] in *.
    + (* by reference *)
      destruct ST as [CB NF]. destruct FR as [MF EA]. apply bind_ok in H as (g & Hg & H). apply bind_ok in H as (body & Hb & H). injection H as <-.
      destruct (ref_cases camel cenv fs f) as [[x Hx]|X]; [|rewrite X in NS; exfalso; apply NS; reflexivity]. rewrite Hx in *. cbn [bind] in *. rewrite Hg in *. cbn [bind] in *.
      pose proof (base_rate b CB) as BR.
      assert (EV : forall e1 c1, menv e1 fs c1 -> eval e1 (EToInt (refExpr camel rv f)) = Ok (VInt (s64 x))).
      { intros e1 c1 M1. cbn [GoLang.eval]. rewrite (ref_eval camel types cenv dat rv ty _ _ _ _ _ M1 Hx). reflexivity. }
      destruct (refExpr_size f) as [R1 R2].
      assert (CE : cells g = 1) by (destruct b; try discriminate CB; cbn [tipe] in Hg; injection Hg as <-; reflexivity).
      assert (C1 : cost (SAssign (LField (LVar rv) F) (EMake g (EToInt (refExpr camel rv f)))) e <= 10 + most).
      { cbn [GoCost.cost]. unfold work. cbn [esize extra lexpr]. rewrite (plain_extra mem types e (refExpr camel rv f)) by auto.
        change (eval e (EMake g (EToInt (refExpr camel rv f)))) with
          (v <- eval e (EToInt (refExpr camel rv f)) ;;
           match v with
           | VInt z => if (z <? 0) || (maxAlloc <? z * gsize g) then Panic "makeslice: len out of range"
                       else Ok (VList (repeat (zero g) (Z.to_nat z)))
           | _ => stuck end).
        rewrite (EV _ _ M). cbn [bind]. destruct ((s64 x <? 0) || (maxAlloc <? s64 x * gsize g)) eqn:MK; [lia|].
        rewrite CE. unfold alloc, blen. rewrite repeat_length. destruct (withMemory mem); [|lia].
        specialize (MF eq_refl _ _ _ IV Hx). lia. }
      rewrite costs_cons. cbn [GoLang.exec].
      change (eval e (EMake g (EToInt (refExpr camel rv f)))) with
        (v <- eval e (EToInt (refExpr camel rv f)) ;;
         match v with
         | VInt z => if (z <? 0) || (maxAlloc <? z * gsize g) then Panic "makeslice: len out of range"
                     else Ok (VList (repeat (zero g) (Z.to_nat z)))
         | _ => stuck end).
      rewrite (EV _ _ M). cbn [bind].
      destruct ((s64 x <? 0) || (maxAlloc <? s64 x * gsize g)) eqn:MK.
      { cbn [lift used] in *. pose proof (pay_pos KB beta (blen c) ltac:(lia)). lia. }
      cbn [lift]. rewrite (p_store _ _ _ _ P _ w) by auto. cbn [lift].
      set (l := repeat (zero g) (Z.to_nat (s64 x))).
      assert (BL : blen l = s64 x) by (unfold l, blen; rewrite repeat_length; lia).
      assert (KBD : 0 <= s64 x < two63) by (split; [lia|]; unfold s64; destruct (x mod two64 <? two63) eqn:E; unfold two64, two63 in *; lia).
      assert (HI : ~ In "idx" [rv]) by (apply LP, LT; cbn; auto).
      assert (LI : In "idx" locs) by (apply LT; cbn; auto).
      assert (LT2 : forall y, In y (localsT b) -> ~ In y ["idx"; rv] /\ In y locs).
      { intros y I. assert (In y locs) by (apply LT; cbn; auto). split; auto. intros [E|E]; [|apply (LP y); auto].
        subst y. destruct (checkBase_locals r cenv locs Hlocs _ _ CB I); discriminate. }
      assert (HB : forall i c1 v, eval (("idx", VInt i) :: assign "cur" (VBytes c1) (pset _ _ _ _ P e v))
                     (EToInt (refExpr camel rv f)) = Ok (VInt (s64 x))).
      { intros i c1 v. rewrite (PS _ _ _ _ M).
        assert (M1 : menv (("idx", VInt i) :: upd e (assign F v fs) c1) (assign F v fs) c1).
        { eapply menv_push; eauto; try discriminate. eapply menv_upd; eauto. }
        cbn [GoLang.eval]. fold (upd e (assign F v fs) c1).
        rewrite (ref_eval camel types cenv dat rv ty _ _ _ _ x M1); [reflexivity|].
        unfold refVal in *. destruct (String.eqb_spec (rscope f) ""); auto.
        now rewrite alookup_assign_other by auto. }
      pose proof (for_cost _ _ _ P NC RDA RCE PL SL b body (EToInt (refExpr camel rv f)) HI (s64 x) 0 (rate b) (beta - (rate b + 10)) Hb CB OK LI LT2 KBD
                    ltac:(cbn; auto) ltac:(cbn [esize]; lia) ltac:(lia) ltac:(lia) ltac:(lia) ltac:(lia)
                    ltac:(intros c2 v2 c3 B2 D2; pose proof (Hless _ _ _ _ EA B2 D2); rewrite !pay_some by lia; lia) e HB
                    n 0 c c l w (proj1 M) G BL ltac:(lia) B) as S.
      replace (s64 x - 0) with (s64 x) in S by lia. specialize (S (stuck_bind _ _ NS)).
      assert (E0 : assign "cur" (VBytes c) (pset _ _ _ _ P e (VList l)) = pset _ _ _ _ P e (VList l)).
      { apply assign_same. rewrite (PS _ _ _ _ M). rewrite alookup_assign_other by (intros E; apply RCU; auto).
        apply (ek_cur _ _ _ _ (proj1 M)). }
      rewrite E0 in S. rewrite costs_cons, cost_for.
      assert (UE : used ('(vs, c1) <- decFor r dcall cenv d n b (s64 x) c ;; Ok (VList vs, c1)) c = used (decFor r dcall cenv d n b (s64 x) c) c).
      { destruct (decFor r dcall cenv d n b (s64 x) c) as [[vs c1]| | |]; reflexivity. }
      assert (U0 : 0 <= used (decFor r dcall cenv d n b (s64 x) c) c).
      { apply used_nonneg. intros v' c' X. eapply decFor_left; eauto. }
      rewrite UE. set (U := used (decFor r dcall cenv d n b (s64 x) c) c) in *.
      pose proof (pay_shift KB beta (rate b + 10) U ltac:(lia)).
      destruct (exec _ _) as [e1 []]; rewrite ?costs_nil; lia.
    + (* leftover *)
      destruct ST as [CB GC]. apply bind_ok in H as (g & Hg & H). apply bind_ok in H as (body & Hb & H).
      pose proof (base_rate b CB) as BR.
      pose proof (constrained_cost _ (fun c0 => '(vs, c1) <- decWhile r dcall cenv d n b c0 ;; Ok (VList vs, c1)) _ _ (40 + 2 * rate b) beta e fs c
        ltac:(lia) ltac:(lia) H M ltac:(apply LT; cbn; auto) B IV) as X.
      match goal with |- _ <= _ + pay _ (used ?o c) => set (U := used o c) in * end.
      cbn [decConstr] in X.
      match type of X with _ -> _ -> _ <= _ + pay _ (used ?o c) + 40 => change (used o c) with U in X end.
      specialize (X ltac:(intros e1 c1 M1 I1 B1 N1; apply WH; auto; intros y I; apply LT; cbn; auto) NS).
      assert (0 <= U).
      { apply used_nonneg. intros v' c' Y. eapply (decType_left camel r dcall n cenv dat Hleft fs (TVar b (Some (LLeftover i)))); eauto. }
      lia.
    + (* remainder *)
      apply bind_ok in H as (g & Hg & H). apply bind_ok in H as (body & Hb & H). injection H as <-.
      pose proof (WH g body e c ST ltac:(intros y I; apply LT; auto) FR Hb M B NS) as S. pose proof (base_rate b ST) as BR.
      match goal with |- _ <= _ + pay _ (used ?o c) => set (U := used o c) in * end.
      assert (0 <= U).
      { apply used_nonneg. intros v' c' Y. eapply (decType_left camel r dcall n cenv dat Hleft fs (TVar b None)); eauto. }
      etransitivity; [exact S|]. lia.
Qed.

End Mode.

(* ---------- members ---------- *)

Variable flds : list (string * type).
Hypothesis Hnd : NoDup (map (fun f => camel (fst f)) flds).
Hypothesis Htypes : forall nm t, In (nm, t) flds -> simType camel r cenv (camel nm) t.
Hypothesis Hfrugal : forall nm t, In (nm, t) flds -> frugal t.
Hypothesis Hnext : forall m fs c fs' c', incl (fieldsM m) flds -> inv fs c -> blen c < two63 ->
  decMember camel r dcall n cenv d m fs c = Ok (fs', c') -> inv fs' c'.

Notation shaped := (shaped camel r flds).
Notation decMember := (decMember camel r dcall n cenv d).
Notation decMembers := (decMembers camel r dcall n cenv d).
Notation parseMember := (parseMember camel r rv).
Notation rateA A := (rateM most r (fun _ => A)).

Definition lists (c : ucase) : Z := match c with UCase l ms => 15 * ranges l end.
Definition bodies (A : Z) (c : ucase) : Z := match c with UCase l ms => sum (rateA A) ms end.
Lemma cases_split : forall A cs,
  sum (fun c => match c with UCase l ms => 15 * ranges l + sum (rateA A) ms end) cs = sum lists cs + sum (bodies A) cs.
Proof. intros A cs. rewrite <- sum_plus. induction cs as [|[l ms] cs IH]; auto. rewrite !sum_cons, IH. reflexivity. Qed.
Lemma lists_pos : forall cs, 0 <= sum lists cs.
Proof. intros cs. apply sum_nonneg. intros [[l|] ms] _; cbn [lists ranges]; [pose proof (blen_nonneg l)|]; lia. Qed.
Lemma ratePos : forall A m, 0 <= A -> incl (fieldsM m) flds -> 0 <= rateA A m.
Proof using Hmost Htypes. clear - Hmost Htypes. intros A m H I. eapply rateM_pos; eauto. Qed.
Lemma sumPos : forall A ms, 0 <= A -> incl (flat_map fieldsM ms) flds -> 0 <= sum (rateA A) ms.
Proof using Hmost Htypes. clear - Hmost Htypes. intros A ms H I. eapply sumM_pos; eauto. Qed.
Lemma bodiesPos : forall A cs, 0 <= A ->
  incl (flat_map (fun c => match c with UCase _ ms => flat_map fieldsM ms end) cs) flds ->
  forall u, In u cs -> 0 <= bodies A u.
Proof using Hmost Htypes.
  clear - Hmost Htypes. intros A cs H I [l ms] J. apply sumPos; auto. intros y Hy. apply I. apply in_flat_map. exists (UCase l ms). auto.
Qed.

(** The choice of a case. *)
Lemma switch_cost : forall tag cs X g, 0 <= X -> 0 <= g <= KB -> forall cases e fs c,
  parseCases camel r rv tag cs = Ok cases ->
  (forall l, In l (caseLists (MUnion "" tag None cs)) -> l <> []) ->
  menv e fs c -> blen c < two63 ->
  (forall k ms b, In (UCase k ms) cs -> mapM parseMember ms = Ok b -> decMembers ms fs c <> stuck ->
    costs b e <= X + pay g (used (decMembers ms fs c) c)) ->
  (x <- refVal camel fs cenv tag ;; decPick camel r dcall n cenv dat cs x cs fs c) <> stuck ->
  costs [SSwitch cases] e <=
    1 + sum lists cs + X + pay g (used (x <- refVal camel fs cenv tag ;; decPick camel r dcall n cenv dat cs x cs fs c) c).
Proof.
  intros tag cs X g X0 G0 cases e fs c H IC M B MS NS. pose proof (blen_nonneg c) as BC.
  destruct (ref_cases camel cenv fs tag) as [[x Hx]|Y]; [|rewrite Y in NS; exfalso; apply NS; reflexivity].
  rewrite Hx in *. cbn [bind] in *.
  rewrite costs_cons, cost_switch.
  assert (DF : forall cs' cases', incl cs' cs -> parseCases camel r rv tag cs' = Ok cases' ->
    decDflt camel r dcall n cenv dat cs' fs c <> stuck ->
    costDefault mem types call ccost n e cases' <= X + pay g (used (decDflt camel r dcall n cenv dat cs' fs c) c)).
  { induction cs' as [|[[l|] ms] cs' IH]; intros cases' I Hc N; cbn [parseCases] in Hc.
    - injection Hc as <-. cbn [costDefault decDflt used]. rewrite Z.sub_diag, pay_zero. lia.
    - apply bind_ok in Hc as (ce & _ & Hc). apply bind_ok in Hc as (b & Hb & Hc). apply bind_ok in Hc as (rest & Hr & Hc).
      injection Hc as <-. cbn [costDefault decDflt] in *. apply IH; auto. intros y Hy. apply I. cbn; auto.
    - apply bind_ok in Hc as (b & Hb & Hc). apply bind_ok in Hc as (rest & Hr & Hc).
      injection Hc as <-. cbn [costDefault decDflt] in *. apply (MS None); auto. apply I. cbn; auto. }
  assert (PK : forall cs' cases', incl cs' cs -> parseCases camel r rv tag cs' = Ok cases' ->
    decPick camel r dcall n cenv dat cs x cs' fs c <> stuck ->
    costPick mem types call ccost n e cases cases' <= sum lists cs' + (X + pay g (used (decPick camel r dcall n cenv dat cs x cs' fs c) c))).
  { induction cs' as [|[[l|] ms] cs' IH]; intros cases' I Hc N; cbn [parseCases] in Hc.
    - injection Hc as <-. cbn [costPick decPick] in *. cbn [sum fold_right]. rewrite Z.add_0_l. apply DF; auto. intros y Hy; auto.
    - apply bind_ok in Hc as (ce & Hce & Hc). apply bind_ok in Hc as (b & Hb & Hc). apply bind_ok in Hc as (rest & Hr & Hc).
      injection Hc as <-. cbn [costPick decPick] in *. rewrite sum_cons. cbn [lists ranges].
      assert (LNE : l <> []).
      { apply IC. cbn [caseLists]. apply in_flat_map. exists (UCase (Some l) ms).
        split; [apply I; cbn; auto|]. cbn. auto. }
      destruct (refExpr_size tag) as [R1 R2].
      assert (CS : plainE ce = true /\ esize ce <= 15 * blen l).
      { destruct l as [|l0 l]; [contradiction|]. unfold conditional in Hce.
        apply bind_ok in Hce as (ces & Hces & E). injection E as <-.
        cbn [mapM] in Hces. apply bind_ok in Hces as (c0 & Hc0 & Hces). apply bind_ok in Hces as (cs'' & Hcs & Hces). injection Hces as <-.
        destruct (clause_size _ _ _ _ Hc0 R1) as [C1 C2]. cbn [joinOr].
        destruct (joinOr_size r (refExpr camel rv tag) R1 l cs'' c0 Hcs C1) as [A1 B1]. split; auto. unfold blen in *. cbn [List.length]. nia. }
      destruct CS as [P1 P2]. rewrite (plain_work mem types e ce P1).
      rewrite (conditional_eval types _ _ _ x _ _ Hce LNE); [|eapply ref_eval; eauto].
      pose proof (lists_pos cs').
      destruct (inList r x l).
      + pose proof (MS (Some l) ms b (I _ (or_introl eq_refl)) Hb N). lia.
      + specialize (IH rest (fun y Hy => I y (or_intror Hy)) Hr N). lia.
    - apply bind_ok in Hc as (b & Hb & Hc). apply bind_ok in Hc as (rest & Hr & Hc).
      injection Hc as <-. cbn [costPick decPick] in *. rewrite sum_cons. cbn [lists ranges].
      specialize (IH rest (fun y Hy => I y (or_intror Hy)) Hr N). lia. }
  specialize (PK cs cases (fun y Hy => Hy) H NS).
  destruct (exec _ e) as [e1 []]; rewrite ?costs_nil; lia.
Qed.

Lemma union_cost : forall u tag len cs X g s e fs c, 0 <= X -> 0 <= g <= KB ->
  parseMember (MUnion u tag len cs) = Ok s -> incl (localsM (MUnion u tag len cs)) locs ->
  (forall l, In l (caseLists (MUnion u tag len cs)) -> l <> []) -> menv e fs c -> inv fs c -> blen c < two63 ->
  decMember (MUnion u tag len cs) fs c <> stuck ->
  (forall e1 c1 k ms b, menv e1 fs c1 -> inv fs c1 -> blen c1 < two63 -> In (UCase k ms) cs -> mapM parseMember ms = Ok b -> decMembers ms fs c1 <> stuck ->
    costs b e1 <= X + pay g (used (decMembers ms fs c1) c1)) ->
  cost s e <= 60 + sum lists cs + X + pay g (used (decMember (MUnion u tag len cs) fs c) c).
Proof.
  intros u tag len cs X g s e fs c X0 G0 H IL IC M IV B NS MS. pose proof (blen_nonneg c) as BC. pose proof (lists_pos cs) as LP.
  rewrite parseMember_union in H. apply bind_ok in H as (cases & Hc & H).
  rewrite decMember_union in *. cbn zeta in *. cbn [localsM] in IL.
  assert (SW : forall e1 c1, menv e1 fs c1 -> inv fs c1 -> blen c1 < two63 ->
    (x <- refVal camel fs cenv tag ;; decPick camel r dcall n cenv dat cs x cs fs c1) <> stuck ->
    costs [SSwitch cases] e1 <= (1 + sum lists cs + X) + pay g (used (x <- refVal camel fs cenv tag ;; decPick camel r dcall n cenv dat cs x cs fs c1) c1)).
  { intros e1 c1 M1 I1 B1 N1. apply (switch_cost tag cs X g X0 G0 cases e1 fs c1 Hc IC M1 B1); auto.
    intros k ms b I Hb N. eapply MS; eauto. }
  destruct len as [l|].
  + apply bind_ok in H as (b & Hb & H). injection H as <-. rewrite cost_block.
    pose proof (constrained_cost [SSwitch cases] (fun c => x <- refVal camel fs cenv tag ;; decPick camel r dcall n cenv dat cs x cs fs c)
      l b (1 + sum lists cs + X) g e fs c ltac:(lia) G0 Hb M ltac:(apply IL; cbn; auto) B IV SW NS) as Y.
    lia.
  + injection H as <-. rewrite cost_block. specialize (SW e c M IV B NS). lia.
Qed.

(** A bound for a member, and for a list of members. *)
Definition mbound (a g : Z) (m : member) : Prop :=
  forall s e fs c, parseMember m = Ok s -> incl (fieldsM m) flds -> incl (localsM m) locs ->
  (forall l, In l (caseLists m) -> l <> []) -> menv e fs c -> shaped fs -> inv fs c ->
  blen c < two63 -> decMember m fs c <> stuck ->
  cost s e <= a + pay g (used (decMember m fs c) c).
Definition msbound (a g : Z) (ms : list member) : Prop :=
  forall ss e fs c, mapM parseMember ms = Ok ss -> incl (flat_map fieldsM ms) flds -> incl (flat_map localsM ms) locs ->
  (forall l, In l (flat_map caseLists ms) -> l <> []) -> menv e fs c -> shaped fs -> inv fs c ->
  blen c < two63 -> decMembers ms fs c <> stuck ->
  costs ss e <= a + pay g (used (decMembers ms fs c) c).

(** First one, then the others: the others may have another bound once bytes were taken. *)
Lemma bound_cons : forall m ms a1 g1 a2 g2 a3 g3 a g, mbound a1 g1 m ->
  (eatsM (Constant r) (Struct r) m \/ msbound a2 g2 ms) -> msbound a3 g3 ms ->
  (forall fs c fs' c', inv fs c -> blen c < two63 -> eatsM (Constant r) (Struct r) m -> decMember m fs c = Ok (fs', c') -> blen c' < blen c) ->
  0 <= g -> g <= g2 <= KB -> 0 <= g3 <= KB -> g <= g1 <= KB -> 0 <= a2 -> 0 <= a3 ->
  a1 + a2 <= a -> a1 + a3 + g <= a + g1 ->
  msbound a g (m :: ms).
Proof.
  intros m ms a1 g1 a2 g2 a3 g3 a g F1 F2 F3 EL G0 G2 G3 G1 A2 A3 LA LB ss e fs c H IF IL IC M S IV B NS.
  cbn [mapM] in H. cbn [GenDecode.decMembers] in *.
  apply bind_ok in H as (s & Hs & H). apply bind_ok in H as (ss' & Hss & H). injection H as <-.
  assert (IF1 : incl (fieldsM m) flds) by (intros y Hy; apply IF; cbn; apply in_or_app; auto).
  assert (IF2 : incl (flat_map fieldsM ms) flds) by (intros y Hy; apply IF; cbn; apply in_or_app; auto).
  assert (IL1 : incl (localsM m) locs) by (intros y Hy; apply IL; cbn; apply in_or_app; auto).
  assert (IC1 : forall l, In l (caseLists m) -> l <> []) by (intros y Hy; apply IC; cbn; apply in_or_app; auto).
  pose proof (member_sim camel r types call dcall n cenv dat rv ty locs Hlocs Hrv Hcenv Hcall flds Hnd Htypes m s e fs c Hs IF1 IL1 IC1 M S) as S1.
  pose proof (F1 s e fs c Hs IF1 IL1 IC1 M S IV B (stuck_bind _ _ NS)) as C1.
  pose proof (blen_nonneg c).
  rewrite costs_cons. destruct (exec s e) as [e1 res].
  destruct (decMember m fs c) as [[fs1 c1]|er|pm|] eqn:D; cbn [sim bind used] in S1, C1, NS |- *.
  + unfold good in S1. cbn [fst snd] in S1. injection S1 as -> ->.
    assert (M1 : menv (upd e fs1 c1) fs1 c1) by (eapply menv_upd; eauto).
    assert (SH : shaped fs1) by (eapply (decMember_shape camel r types call dcall n cenv dat rv locs Hlocs Hcenv Hcall flds Hnd Htypes); eauto).
    assert (L1 : blen c1 <= blen c) by (eapply decMember_left; eauto).
    assert (C3 := F3 ss' _ _ _ Hss IF2
      ltac:(intros y Hy; apply IL; cbn; apply in_or_app; auto)
      ltac:(intros y Hy; apply IC; cbn; apply in_or_app; auto) M1 SH (Hnext _ _ _ _ _ IF1 IV B D) ltac:(lia) NS).
    assert (U0 : 0 <= used (decMembers ms fs1 c1) c1).
    { apply used_nonneg. intros v' c' X. eapply decMembers_left; eauto. lia. }
    assert (UE : used (decMembers ms fs1 c1) c1 + (blen c - blen c1) <= used (decMembers ms fs1 c1) c).
    { destruct (decMembers ms fs1 c1) as [[v' c']| | |]; cbn [used]; lia. }
    set (U := used (decMembers ms fs1 c1) c) in *. set (U2 := used (decMembers ms fs1 c1) c1) in *.
    destruct (Z_lt_dec (blen c1) (blen c)) as [LT|GE].
    * rewrite (pay_some KB g U) by lia. rewrite (pay_some KB g1) in C1 by lia.
      assert (pay g3 U2 <= KB * U2) by (unfold CostRec.pay; destruct (U2 <=? 0) eqn:?; nia).
      nia.
    * destruct F2 as [F2|F2]; [pose proof (EL _ _ _ _ IV B F2 D); lia|].
      assert (C2 := F2 ss' _ _ _ Hss IF2
        ltac:(intros y Hy; apply IL; cbn; apply in_or_app; auto)
        ltac:(intros y Hy; apply IC; cbn; apply in_or_app; auto) M1 SH (Hnext _ _ _ _ _ IF1 IV B D) ltac:(lia) NS).
      replace (blen c - blen c1) with 0 in C1 by lia. rewrite pay_zero in C1.
      pose proof (pay_mono KB g2 U2 U ltac:(lia) ltac:(lia)). pose proof (pay_anti KB g g2 U ltac:(lia)). fold U2 in C2. lia.
  + destruct S1 as (e' & E). injection E as -> ->. pose proof (pay_anti KB g g1 (blen c) ltac:(lia)). lia.
  + destruct S1 as [->|(e' & E)]; [exfalso; apply NS; reflexivity|]. injection E as -> ->. pose proof (pay_anti KB g g1 (blen c) ltac:(lia)). lia.
  + destruct S1 as (e' & E). injection E as -> ->. pose proof (pay_anti KB g g1 (blen c) ltac:(lia)). lia.
Qed.
Lemma bound_nil : forall a g, 0 <= a -> msbound a g [].
Proof.
  intros a g H ss e fs c E _ _ _ _ _ _ _ _. injection E as <-. rewrite costs_nil. cbn [GenDecode.decMembers used]. rewrite Z.sub_diag, pay_zero. lia.
Qed.

(** Bounds that hold wherever a member stands. *)
Section After.
Variable W bw : Z.
Hypothesis HW : 0 <= W.
Hypothesis Hbw : 0 <= bw /\ bw + 3 <= KB.
Hypothesis HcostW : forall nm s c fields args, Struct r nm = Some s -> Extern s = false ->
  ctxArgs cenv (scontexts s) = Ok args -> alookup (camel nm) types = Some fields ->
  blen c < two63 -> dcall nm cenv c <> stuck ->
  ccost (VStruct (camel nm) (zeros fields)) (VBytes c) args + alloc mem (cellsOf fields) + blen (scontexts s)
    <= W + pay bw (used (dcall nm cenv c) c).
Hypothesis HroomW : forall nm t, In (nm, t) flds -> rateT most r (fun _ => W) t <= bw.

Lemma plain_member : forall a g m, 10 <= a -> 0 <= g <= KB ->
  match m with MEOS | MFail | MIgnore => True | _ => False end -> mbound a g m.
Proof.
  intros a g m A10 G0 Hm s e fs c H IF IL IC M S IV B NS. pose proof (blen_nonneg c) as BC.
  assert (PP := pay_pos KB g (used (decMember m fs c) c) G0).
  destruct m; try contradiction.
  - injection H as <-. rewrite cost_block.
    assert (X : costs [assertEnd] e <= 9).
    { rewrite costs_cons. assert (cost assertEnd e <= 8) by (etransitivity; [apply check_cost; reflexivity|cbn; lia]).
      destruct (exec _ e) as [? []]; rewrite ?costs_nil; lia. }
    lia.
  - injection H as <-. rewrite cost_block, ret_cost. lia.
  - injection H as <-. rewrite cost_block.
    rewrite costs_cons, assign_cost by reflexivity. cbn [lexpr esize]. destruct (exec _ e) as [? []]; rewrite ?costs_nil; lia.
Qed.

Lemma field_member : forall A b (okn : string -> Prop) nm t, 0 <= A -> 0 <= b /\ b + 3 <= KB ->
  (forall nm s c fields args, okn nm -> Struct r nm = Some s -> Extern s = false ->
    ctxArgs cenv (scontexts s) = Ok args -> alookup (camel nm) types = Some fields ->
    blen c < two63 -> dcall nm cenv c <> stuck ->
    ccost (VStruct (camel nm) (zeros fields)) (VBytes c) args + alloc mem (cellsOf fields) + blen (scontexts s)
      <= A + pay b (used (dcall nm cenv c) c)) ->
  (forall x, In x (structsT t) -> okn x) -> (In (nm, t) flds -> rateT most r (fun _ => A) t <= b) ->
  mbound (rateA A (MField nm t)) b (MField nm t).
Proof.
  intros A b okn nm t A0 B0 HC OK RM s e fs c H IF IL IC M S IV B NS.
  cbn [GenModel.parseMember] in H. apply bind_ok in H as (bd & Hb & H). injection H as <-.
  rewrite cost_block. cbn [GenDecode.decMember CostSpec.rateM] in *.
  assert (I : In (nm, t) flds) by (apply IF; cbn; auto).
  destruct (S _ _ I) as (w & Hw & SW).
  pose proof (type_cost A b okn A0 B0 HC (camel nm) t bd e fs c w Hb (Htypes _ _ I) IL (Hfrugal _ _ I) OK (RM I) M Hw SW IV B (stuck_bind _ _ NS)) as S1.
  match goal with |- _ <= _ + CostRec.pay _ _ ?u =>
    replace u with (used (decType camel r dcall n cenv d fs t c) c)
      by (destruct (decType camel r dcall n cenv d fs t c) as [[]| | |]; reflexivity) end.
  lia.
Qed.

Definition eaten : Prop := forall m fs c fs' c', inv fs c -> blen c < two63 -> eatsM (Constant r) (Struct r) m -> decMember m fs c = Ok (fs', c') -> blen c' < blen c.
Hypothesis Heaten : eaten.

Lemma after_members : forall ms, incl (flat_map fieldsM ms) flds -> Forall (fun m => incl (fieldsM m) flds -> mbound (rateA W m) bw m) ms ->
  msbound (sum (rateA W) ms) bw ms.
Proof.
  induction ms as [|m ms IH]; intros I F.
  - apply bound_nil. cbn. lia.
  - assert (I1 : incl (fieldsM m) flds) by (intros y Hy; apply I; cbn; apply in_or_app; auto).
    assert (I2 : incl (flat_map fieldsM ms) flds) by (intros y Hy; apply I; cbn; apply in_or_app; auto).
    pose proof (IH I2 (Forall_inv_tail F)) as IH'. pose proof (Forall_inv F I1) as F1. rewrite sum_cons.
    pose proof (sumPos W ms HW I2).
    apply (bound_cons m ms (rateA W m) bw (sum (rateA W) ms) bw (sum (rateA W) ms) bw); auto; try lia.
    intros. eapply Heaten; eauto.
Qed.
Lemma after_member : forall m, incl (fieldsM m) flds -> mbound (rateA W m) bw m.
Proof.
  induction m as [nm t|u tag len cs IH| | |] using member_ind'; intros I; try (apply plain_member; cbn; auto; lia).
  - apply (field_member W bw (fun _ => True)); auto. intros J. eapply HroomW; eauto.
  - intros s e fs c H IF IL IC M S IV B NS. cbn [CostSpec.rateM]. rewrite cases_split.
    assert (BP := bodiesPos W cs HW I). assert (0 <= sum (bodies W) cs) by (apply sum_nonneg; auto).
    etransitivity; [apply (union_cost u tag len cs (sum (bodies W) cs) bw s e fs c); auto; try lia|lia].
    intros e1 c1 k ms b M1 I1 B1 J Hb N.
    assert (IFm : incl (flat_map fieldsM ms) flds).
    { intros y Hy. apply I. cbn [fieldsM]. apply in_flat_map. exists (UCase k ms). auto. }
    rewrite Forall_forall in IH. specialize (IH _ J). cbn [ucase_members] in IH.
    pose proof (after_members ms IFm IH b e1 fs c1 Hb IFm
      ltac:(intros y Hy; apply IL; cbn [localsM]; apply in_or_app; right; apply in_flat_map; exists (UCase k ms); auto)
      ltac:(intros l Hl; apply IC; cbn [caseLists]; apply in_flat_map; exists (UCase k ms); split; auto; apply in_or_app; auto)
      M1 S I1 B1 N) as Y.
    pose proof (sum_in (bodies W) cs (UCase k ms) BP J) as SI. cbn [bodies] in SI. lia.
Qed.
Lemma after_list : forall ms, incl (flat_map fieldsM ms) flds -> msbound (sum (rateA W) ms) bw ms.
Proof. intros ms I. apply after_members; auto. apply Forall_forall. intros m _. apply after_member. Qed.

(** Bounds that hold before a byte was taken. *)
Variable rank : string -> nat.
Variable k : nat.
Variable A b : Z.
Hypothesis HA : 0 <= A.
Hypothesis Hb : b + 3 <= KB.
Hypothesis HcostA : forall nm s c fields args, (rank nm < k)%nat -> Struct r nm = Some s -> Extern s = false ->
  ctxArgs cenv (scontexts s) = Ok args -> alookup (camel nm) types = Some fields ->
  blen c < two63 -> dcall nm cenv c <> stuck ->
  ccost (VStruct (camel nm) (zeros fields)) (VBytes c) args + alloc mem (cellsOf fields) + blen (scontexts s)
    <= A + pay b (used (dcall nm cenv c) c).
Hypothesis HroomA : forall nm t, In (nm, t) flds -> rateT most r (fun _ => A) t <= b.

Definition guardM (m : member) : Prop :=
  match m with
  | MField _ t => guardT rank k t
  | MUnion _ _ _ cs => forall c, In c cs -> guarded r rank k (ucase_members c)
  | _ => True
  end.

Lemma guard_structs : forall nm t, In (nm, t) flds -> guardT rank k t -> forall x, In x (structsT t) -> (rank x < k)%nat.
Proof using Htypes.
  clear - Htypes. intros nm t I G x J. specialize (Htypes _ _ I). unfold guardT in G.
  assert (BS : forall t', checkBase r (map fst cenv) t' = true -> In x (structsT t') -> t' = TStruct x).
  { intros [] C X; cbn in *; try contradiction; try discriminate. destruct X as [->|[]]; auto. }
  destruct t as [| | | |nm'|b0 i|b0 l]; cbn [structsT arrayBase simType] in *; try contradiction.
  - destruct J as [->|[]]. auto.
  - destruct Htypes as [C _]. rewrite (BS _ C J) in G. auto.
  - assert (C : checkBase r (map fst cenv) b0 = true) by (destruct l as [[]|]; tauto). rewrite (BS _ C J) in G. auto.
Qed.

Definition beforeM (m : member) : Prop := incl (fieldsM m) flds -> guardM m -> rateA W m <= b ->
  mbound (rateA A m) (b - rateA W m) m.
Lemma before_members : forall ms, Forall beforeM ms -> incl (flat_map fieldsM ms) flds -> guarded r rank k ms -> sum (rateA W) ms <= b ->
  msbound (sum (rateA A) ms) (b - sum (rateA W) ms) ms.
Proof.
  induction ms as [|m ms IH]; intros F I G R.
  - apply bound_nil. cbn. lia.
  - assert (I1 : incl (fieldsM m) flds) by (intros y Hy; apply I; cbn; apply in_or_app; auto).
    assert (I2 : incl (flat_map fieldsM ms) flds) by (intros y Hy; apply I; cbn; apply in_or_app; auto).
    pose proof (after_list ms I2) as AL. rewrite !sum_cons in *.
    pose proof (sumPos W ms HW I2). pose proof (sumPos A ms HA I2). pose proof (ratePos W m HW I1). pose proof (ratePos A m HA I1).
    assert (GM : guardM m /\ (eatsM (Constant r) (Struct r) m \/ guarded r rank k ms)).
    { inversion G as [|nm t ms' G1 G2|u tag len cs ms' G1 G2|ms' G1|ms' G1|ms']; subst; cbn [guardM]; split; auto.
      - destruct G2; [left; constructor; auto|auto].
      - left. constructor. }
    destruct GM as [GM GR].
    pose proof (Forall_inv F I1 GM ltac:(lia)) as F1.
    apply (bound_cons m ms (rateA A m) (b - rateA W m) (sum (rateA A) ms) (b - sum (rateA W) ms) (sum (rateA W) ms) bw); auto; try lia.
    + destruct GR as [E|GR]; [auto|]. right. apply IH; auto; [apply (Forall_inv_tail F)|lia].
    + intros. eapply Heaten; eauto.
Qed.
Lemma before_member : forall m, beforeM m.
Proof.
  induction m as [nm t|u tag len cs IH| | |] using member_ind'; intros I G R;
    try (pose proof (ratePos W _ HW I); apply plain_member; cbn [CostSpec.rateM] in *; auto; lia).
  - assert (IN : In (nm, t) flds) by (apply I; cbn; auto).
    pose proof (ratePos W _ HW I) as RP.
    intros s e fs c H IF IL IC M S IV B NS.
    pose proof (field_member A b (fun x => (rank x < k)%nat) nm t HA ltac:(lia) HcostA (guard_structs nm t IN G) (fun _ => HroomA _ _ IN) s e fs c H IF IL IC M S IV B NS) as X.
    pose proof (pay_anti KB (b - rateA W (MField nm t)) b (used (decMember (MField nm t) fs c) c) ltac:(lia)). lia.
  - intros s e fs c H IF IL IC M S IV B NS. cbn [CostSpec.rateM] in *. rewrite (cases_split W) in R. rewrite (cases_split A), (cases_split W).
    assert (BP := bodiesPos A cs HA I). assert (0 <= sum (bodies A) cs) by (apply sum_nonneg; auto).
    assert (BW := bodiesPos W cs HW I). assert (0 <= sum (bodies W) cs) by (apply sum_nonneg; auto).
    pose proof (lists_pos cs).
    etransitivity; [apply (union_cost u tag len cs (sum (bodies A) cs) (b - sum (bodies W) cs) s e fs c); auto; try lia|].
    2:{ match goal with |- _ + CostRec.pay _ ?x ?v <= _ + CostRec.pay _ ?y ?v => pose proof (pay_anti KB y x v ltac:(lia)) end. lia. }
    intros e1 c1 k0 ms b0 M1 I1 B1 J Hb0 N.
    assert (IFm : incl (flat_map fieldsM ms) flds).
    { intros y Hy. apply I. cbn [fieldsM]. apply in_flat_map. exists (UCase k0 ms). auto. }
    rewrite Forall_forall in IH. specialize (IH _ J). cbn [ucase_members] in IH.
    pose proof (sum_in (bodies A) cs (UCase k0 ms) BP J) as SI. pose proof (sum_in (bodies W) cs (UCase k0 ms) BW J) as SJ. cbn [bodies] in SI, SJ.
    pose proof (before_members ms IH IFm (G _ J) ltac:(lia) b0 e1 fs c1 Hb0 IFm
      ltac:(intros y Hy; apply IL; cbn [localsM]; apply in_or_app; right; apply in_flat_map; exists (UCase k0 ms); auto)
      ltac:(intros l Hl; apply IC; cbn [caseLists]; apply in_flat_map; exists (UCase k0 ms); split; auto; apply in_or_app; auto)
      M1 S I1 B1 N) as Y.
    pose proof (pay_anti KB (b - sum (bodies W) cs) (b - sum (rateA W) ms) (used (decMembers ms fs c1) c1) ltac:(lia)). lia.
Qed.

(** The statements of a whole struct. *)
Theorem body_bound : forall ms, incl (flat_map fieldsM ms) flds -> guarded r rank k ms -> sum (rateA W) ms <= b ->
  msbound (sum (rateA A) ms) (b - sum (rateA W) ms) ms.
Proof. intros ms. apply before_members. apply Forall_forall. intros m _. apply before_member. Qed.
End After.
End Body.
