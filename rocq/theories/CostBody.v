(** What one generated Parse body costs. *)
From Coq Require Import ZArith String List Bool Lia.
From Coq Require Import ZifyBool ZifyNat.
From Verif Require Import Base Ast IntervalsModel InspectModel InspectSpec InspectProofs GoLang GenModel GenDecode GenCheck GenSim GenSimBody
  WireSpec WireComplete GenTerm GoCost CostGrow CostSpec CostDec.
Import ListNotations.
Open Scope string_scope.
Open Scope list_scope.
Open Scope Z_scope.
Ltac Zify.zify_post_hook ::= Z.div_mod_to_equations.

(** Input used up; all of it if there is no result. *)
Definition used {A} (o : outcome (A * bytes)) (c : bytes) : Z :=
  match o with Ok (_, c') => blen c - blen c' | _ => blen c end.
Definition stuckb {A} (o : outcome A) : Prop := o = stuck.

Lemma scale : forall K u v, 0 <= K -> u <= v -> K * (u + 1) <= K * (v + 1).
Proof. intros. nia. Qed.

Fixpoint plainE (x : expr) : bool :=
  match x with
  | EInt _ | EVar _ | EEmptyBytes | ENil | EError _ | EBlank => true
  | ESel a _ | ELen a | EToInt a | ENot a | EParen a | ENotNil a | EBigEndian _ a => plainE a
  | EIdx a b | EBin _ a b | EFrom a b | ETo a b => plainE a && plainE b
  | _ => false
  end.

Section Unfold.
Variable mem : account.
Variable types : amap (list (string * gtype)).
Variable call : callfun.
Variable ccost : value -> value -> list value -> Z.
Variable n : nat.
Notation extra := (extra mem types).
Notation work := (work mem types).
Notation cost := (cost mem types call ccost n).
Notation costs := (costs mem types call ccost n).
Notation exec := (exec types call n).
Notation execs := (execs types call n).
Notation block := (block types call n).
Notation eval := (eval types).

Lemma plain_extra : forall e x, plainE x = true -> extra e x = 0.
Proof.
  intros e. induction x; cbn [plainE GoCost.extra]; intros H; auto; try discriminate;
    try (apply andb_true_iff in H as [H1 H2]; rewrite IHx1, IHx2 by auto; reflexivity).
Qed.
Lemma plain_work : forall e x, plainE x = true -> work e x = esize x.
Proof. intros e x H. unfold GoCost.work. rewrite plain_extra by auto. lia. Qed.

Lemma costs_cons : forall s ss e, costs (s :: ss) e =
  cost s e + match exec s e with (e1, SNext) => costs ss e1 | _ => 0 end.
Proof. reflexivity. Qed.
Lemma costs_nil : forall e, costs [] e = 0.
Proof. reflexivity. Qed.
Lemma costs_app : forall a b e, costs (a ++ b) e =
  costs a e + match execs a e with (e1, SNext) => costs b e1 | _ => 0 end.
Proof.
  induction a as [|s a IH]; intros b e; [reflexivity|].
  cbn [app]. rewrite !costs_cons, execs_cons. destruct (exec s e) as [e1 []]; try rewrite IH; lia.
Qed.
Lemma cost_if : forall c b e, cost (SIf c b) e =
  1 + (work e c + match eval e c with Ok (VBool true) => costs b e | _ => 0 end).
Proof. reflexivity. Qed.
Lemma cost_block : forall b e, cost (SBlock b) e = 1 + costs b e.
Proof. reflexivity. Qed.

Definition costFor (x : string) (bound : expr) (b : list stmt) := fix loop (m : nat) (e : env) {struct m} : Z :=
  1 + work e (EBin BLt (EVar x) bound) +
  match eval e (EBin BLt (EVar x) bound) with
  | Ok (VBool true) =>
      match m with
      | O => 0
      | S m' =>
          costs b e +
          match block b e with
          | (e1, SNext) =>
              work e1 (EBin BAdd (EVar x) (EInt 1)) +
              match eval e1 (EBin BAdd (EVar x) (EInt 1)) with
              | Ok w => loop m' (assign x w e1)
              | _ => 0
              end
          | _ => 0
          end
      end
  | _ => 0
  end.
Lemma cost_for : forall x bound b e, cost (SForLt x bound b) e = 1 + costFor x bound b n ((x, VInt 0) :: e).
Proof. reflexivity. Qed.
Definition costWhile (c : expr) (b : list stmt) := fix loop (m : nat) (e : env) {struct m} : Z :=
  1 + work e c +
  match eval e c with
  | Ok (VBool true) =>
      match m with
      | O => 0
      | S m' => costs b e + match block b e with (e1, SNext) => loop m' e1 | _ => 0 end
      end
  | _ => 0
  end.
Lemma cost_while : forall c b e, cost (SWhile c b) e = 1 + costWhile c b n e.
Proof. reflexivity. Qed.
Definition costDefault (e : env) := fix default (cs : list (option expr * list stmt)) : Z :=
  match cs with
  | [] => 0
  | (None, b) :: _ => costs b e
  | (Some _, _) :: cs' => default cs'
  end.
Definition costPick (e : env) (all : list (option expr * list stmt)) := fix pick (cs0 : list (option expr * list stmt)) : Z :=
  match cs0 with
  | [] => costDefault e all
  | (None, _) :: cs' => pick cs'
  | (Some c, b) :: cs' =>
      work e c +
      match eval e c with
      | Ok (VBool true) => costs b e
      | Ok (VBool false) => pick cs'
      | _ => 0
      end
  end.
Lemma cost_switch : forall cs e, cost (SSwitch cs) e = 1 + costPick e cs cs.
Proof. reflexivity. Qed.

(* ---------- plain statements ---------- *)

Lemma ret_cost : forall m e, costs [retErr m] e = 3.
Proof. reflexivity. Qed.
Lemma check_cost : forall c m e, plainE c = true -> cost (SIf c [retErr m]) e <= 4 + esize c.
Proof.
  intros c m e H. rewrite cost_if, plain_work by auto. rewrite ret_cost.
  destruct (eval e c) as [[| | | | | | |[]]| | |]; lia.
Qed.
Lemma assign_cost : forall l a e, plainE a = true -> cost (SAssign l a) e = 1 + esize (lexpr l) + esize a.
Proof. intros l a e H. cbn [GoCost.cost]. rewrite plain_work by auto. lia. Qed.
Lemma decl_cost : forall x a e, plainE a = true -> cost (SDecl x a) e = 1 + esize a.
Proof. intros x a e H. cbn [GoCost.cost]. rewrite plain_work by auto. lia. Qed.
End Unfold.

Lemma esize_pos : forall x, 1 <= esize x.
Proof. induction x; cbn [esize]; lia. Qed.

Lemma clause_size : forall r v g c, clauseOf r v g = Ok c -> plainE v = true ->
  plainE c = true /\ esize c <= 6 + 2 * esize v.
Proof.
  intros r v g c H P. pose proof (esize_pos v). unfold clauseOf in H. destruct (rhigh g).
  - apply bind_ok in H as (a & _ & H). apply bind_ok in H as (b & _ & H). injection H as <-.
    cbn [plainE esize]. rewrite P. split; auto. lia.
  - apply bind_ok in H as (a & _ & H). injection H as <-. cbn [plainE esize]. rewrite P. split; auto. lia.
Qed.
Lemma joinOr_size : forall r v, plainE v = true -> forall l cs acc, mapM (clauseOf r v) l = Ok cs -> plainE acc = true ->
  plainE (fold_left (fun a c => EBin BOr a c) cs acc) = true /\
  esize (fold_left (fun a c => EBin BOr a c) cs acc) <= esize acc + (7 + 2 * esize v) * blen l.
Proof.
  intros r v P. induction l as [|g l IH]; intros cs acc H PA.
  - injection H as <-. cbn [fold_left]. unfold blen. cbn. split; auto. lia.
  - cbn [mapM] in H. apply bind_ok in H as (c & Hc & H). apply bind_ok in H as (cs' & Hcs & H). injection H as <-.
    destruct (clause_size _ _ _ _ Hc P) as [C1 C2]. cbn [fold_left].
    destruct (IH cs' (EBin BOr acc c) Hcs) as [A B]; [cbn; now rewrite PA, C1|]. split; auto.
    cbn [esize] in B. unfold blen in *. cbn [List.length]. lia.
Qed.
Lemma conditional_size : forall r v l c, conditional r v l = Ok c -> plainE v = true -> esize v <= 4 ->
  plainE c = true /\ esize c <= 1 + 15 * blen l.
Proof.
  intros r v [|g l] c H P V; unfold conditional in H.
  - injection H as <-. cbn. split; auto. lia.
  - apply bind_ok in H as (cs & H & Hc). injection Hc as <-.
    cbn [mapM] in H. apply bind_ok in H as (c & Hc & H). apply bind_ok in H as (cs' & Hcs & H). injection H as <-.
    destruct (clause_size _ _ _ _ Hc P) as [C1 C2]. cbn [joinOr].
    destruct (joinOr_size r v P l cs' c Hcs C1) as [A B]. split; auto. unfold blen in *. cbn [List.length].
    pose proof (esize_pos v). nia.
Qed.

Lemma sum_nonneg : forall {A} (f : A -> Z) l, (forall x, In x l -> 0 <= f x) -> 0 <= sum f l.
Proof.
  intros A f l. induction l as [|x l IH]; intros H; cbn [sum fold_right]; [lia|].
  pose proof (H x (or_introl eq_refl)). fold (sum f l). specialize (IH (fun y I => H y (or_intror I))). lia.
Qed.
Lemma sum_in : forall {A} (f : A -> Z) l x, (forall x, In x l -> 0 <= f x) -> In x l -> f x <= sum f l.
Proof.
  intros A f l x. induction l as [|y l IH]; intros H I; [destruct I|]. cbn [sum fold_right]. fold (sum f l).
  assert (0 <= sum f l) by (apply sum_nonneg; intros z Z; apply H; cbn; auto).
  pose proof (H y (or_introl eq_refl)). destruct I as [->|I]; [lia|].
  specialize (IH (fun y I => H y (or_intror I)) I). lia.
Qed.
Lemma sum_plus : forall {A} (f g : A -> Z) l, sum (fun x => f x + g x) l = sum f l + sum g l.
Proof.
  intros A f g l. induction l as [|y l IH]; [reflexivity|]. cbn [sum fold_right].
  fold (sum f l) (sum g l) (sum (fun x => f x + g x) l). lia.
Qed.
Lemma sum_cons : forall {A} (f : A -> Z) x l, sum f (x :: l) = f x + sum f l.
Proof. reflexivity. Qed.

Lemma used_nonneg : forall {A} (o : outcome (A * bytes)) c, (forall v c', o = Ok (v, c') -> blen c' <= blen c) -> 0 <= used o c.
Proof. intros A [[v c']| | |] c H; cbn [used]; try apply blen_nonneg. specialize (H _ _ eq_refl). lia. Qed.

Section Body.
Variable mem : account.
Variable camel : string -> string.
Variable r : resolver.
Variable types : amap (list (string * gtype)).
Variable call : callfun.
Variable ccost : value -> value -> list value -> Z.
Variable dcall : string -> amap value -> bytes -> outcome (value * bytes).
Variable n : nat.
Variable cenv : amap value.
Variable dat : bytes.
Variable rv ty : string.
Variable locs : list string.
Hypothesis Hlocs : In "cur" locs /\ In "data" locs /\ In "err" locs.
Hypothesis Hrv : ~ In rv locs.
Hypothesis Hcenv : forall x v, alookup x cenv = Some v -> ~ In x locs /\ x <> rv.
Hypothesis Hcall : forall nm s c, Struct r nm = Some s -> Extern s = false ->
  dcall nm cenv c = stuck \/
  exists fields args, ctxArgs cenv (scontexts s) = Ok args /\ alookup (camel nm) types = Some fields /\
    ressim (call (VStruct (camel nm) (zeros fields)) (VBytes c) args) (dcall nm cenv c).
Notation d := (blen dat).
Notation cost := (cost mem types call ccost n).
Notation costs := (costs mem types call ccost n).
Notation exec := (exec types call n).
Notation execs := (execs types call n).
Notation eval := (eval types).
Notation place := (place types).
Notation envok := (envok cenv dat).
Notation decBase := (decBase r dcall cenv d).

(** The prices of nested structs, the elements for which room is made at once, and
    what is known of the fields so far and the bytes left. *)
Variable most : Z.
Variable inv : amap value -> bytes -> Prop.
Hypothesis Hmost : 0 <= most.
Hypothesis Hpart : forall fs c k, inv fs c -> inv fs (firstn k c).
Variable K : string -> Z.
Variable okn : string -> Prop.
Hypothesis HK : forall nm, 0 <= K nm.
Hypothesis Hcost : forall nm s c fields args, okn nm -> Struct r nm = Some s -> Extern s = false ->
  ctxArgs cenv (scontexts s) = Ok args -> alookup (camel nm) types = Some fields ->
  blen c < two63 -> dcall nm cenv c <> stuck ->
  ccost (VStruct (camel nm) (zeros fields)) (VBytes c) args + alloc mem (cellsOf fields) + blen (scontexts s)
    <= K nm * (used (dcall nm cenv c) c + 1).
Hypothesis Hleft : forall nm ce c v c', blen c < two63 -> dcall nm ce c = Ok (v, c') -> blen c' <= blen c.
Hypothesis Hless : forall t c v c', eats (Constant r) (Struct r) t -> blen c < two63 ->
  decBase t c = Ok (v, c') -> blen c' < blen c.

Lemma costs_step : forall s ss e a b, cost s e <= a -> (forall e1, costs ss e1 <= b) -> 0 <= b -> costs (s :: ss) e <= a + b.
Proof. intros s ss e a b A B N. rewrite costs_cons. destruct (exec s e) as [e1 []]; try specialize (B e1); lia. Qed.
Lemma costs_next : forall s ss e e1 a b, cost s e <= a -> exec s e = (e1, SNext) -> costs ss e1 <= b -> costs (s :: ss) e <= a + b.
Proof. intros s ss e e1 a b A E B. rewrite costs_cons, E. lia. Qed.

Lemma int_cost : forall sz cst L ss e, parseIntType r L sz cst = Ok ss -> plainE (lexpr L) = true -> esize (lexpr L) <= 4 ->
  costs ss e <= 30 + 15 * ranges cst.
Proof.
  intros sz cst L ss e H PL SL. unfold parseIntType in H. apply bind_ok in H as (check & Hc & H). injection H as <-.
  assert (FIN : forall e, costs [SAssign (LVar "cur") (EFrom cur (EInt (sz / 8)))] e <= 5).
  { intros e0. rewrite costs_cons, assign_cost by reflexivity. cbn [lexpr esize cur]. destruct (exec _ e0) as [? []]; rewrite ?costs_nil; lia. }
  assert (CH : forall e, costs (check ++ [SAssign (LVar "cur") (EFrom cur (EInt (sz / 8)))]) e <= 12 + 15 * ranges cst).
  { intros e0. destruct cst as [l|]; cbn [ranges].
    - apply bind_ok in Hc as (ce & Hc & E). injection E as <-. destruct (conditional_size _ _ _ _ Hc PL SL) as [C1 C2].
      cbn [app]. replace (12 + 15 * blen l) with (7 + 15 * blen l + 5) by lia.
      apply costs_step; [|exact FIN|lia]. etransitivity; [apply check_cost; cbn; auto|]. cbn [esize]. lia.
    - injection Hc as <-. cbn [app]. specialize (FIN e0). lia. }
  assert (0 <= ranges cst) by (destruct cst; cbn; [apply blen_nonneg|lia]).
  cbn [app]. replace (30 + 15 * ranges cst) with (10 + (8 + (12 + 15 * ranges cst))) by lia.
  apply costs_step; [etransitivity; [apply check_cost; reflexivity|cbn; lia]| |lia].
  intros e1. apply costs_step; [|exact CH|lia].
  destruct (sz / 8 =? 1); rewrite assign_cost by reflexivity; cbn [esize cur]; lia.
Qed.

Lemma scanned_index : forall c z, indexByte c z 0 <? 0 = false -> scanned c z = indexByte c z 0 + 1.
Proof. intros c z H. unfold scanned. now rewrite H. Qed.
Lemma scanned_le : forall c z, scanned c z <= blen c.
Proof. intros c z. unfold scanned. pose proof (indexByte_bound c z). destruct (indexByte c z 0 <? 0) eqn:E; lia. Qed.
Lemma alloc_le : forall k, 0 <= k -> 0 <= alloc mem k <= k.
Proof. intros k H. unfold alloc. destruct (withMemory mem); lia. Qed.

Lemma args_work : forall e c xs, GenSimBody.envok cenv dat e c -> fold_right (fun x t => work mem types e x + t) 0 (map EVar xs) = blen xs.
Proof.
  intros e c xs _. induction xs as [|x xs IH]; auto. cbn [map fold_right]. rewrite IH. unfold work, blen. cbn [esize extra List.length]. lia.
Qed.

Lemma base_cost : forall t L pv root (P : place L pv root) ss e c w,
  parseType camel r rv L t = Ok ss -> checkBase r (map fst cenv) t = true ->
  envok e c -> pget _ _ _ _ P e = Some w ->
  ~ In "cur" pv -> root <> "data" -> (forall w, alookup root cenv <> Some w) ->
  (forall y, In y (localsT t) -> ~ In y pv /\ In y locs) ->
  plainE (lexpr L) = true -> esize (lexpr L) <= 4 -> (forall x, In x (structsT t) -> okn x) ->
  blen c < two63 -> decBase t c <> stuck ->
  costs ss e <= rateT most r K t * (used (decBase t c) c + 1).
Proof.
  intros t L pv root P ss e c w H CB E G NC RD RC LT PL SL OK B NS.
  assert (U : 0 <= used (decBase t c) c).
  { apply used_nonneg. intros v c' X. eapply decBase_left; eauto. }
  pose proof (esize_pos (lexpr L)) as EP.
  assert (RCU : root <> "cur") by (intros X; apply NC; rewrite <- X; apply (p_root _ _ _ _ P)).
  destruct t as [sz cst| | | |nm|b s|b cst]; cbn [checkBase] in CB; try discriminate; cbn [parseType] in H; cbn [rateT].
  - assert (0 <= ranges cst) by (destruct cst; cbn; [apply blen_nonneg|lia]).
    pose proof (int_cost _ _ _ _ e H PL SL). nia.
  - pose proof (int_cost _ _ _ _ e H PL SL). cbn [ranges] in *. nia.
  - injection H as <-. rewrite costs_cons, assign_cost by reflexivity. cbn [esize cur].
    destruct (exec _ e) as [? []]; rewrite ?costs_nil; lia.
  - injection H as <-. cbn [GenDecode.decBase] in *. unfold decNul in *.
    set (i := indexByte c 0 0) in *.
    assert (LI := LT "i" (or_introl eq_refl)).
    assert (K1 : envok (("i", VInt i) :: e) c) by (eapply envok_push; eauto; try discriminate; tauto).
    rewrite costs_cons. cbn [GoLang.exec GoLang.eval GoCost.cost]. change (eval e cur) with (eval e (EVar "cur")). rewrite (eval_cur types cenv dat _ _ E).
    cbn [bind lift]. fold i.
    assert (W1 : work mem types e (EIndexByte cur 0) = 2 + scanned c 0).
    { unfold work. unfold cur. cbn [esize extra]. rewrite (eval_cur types cenv dat _ _ E). lia. }
    rewrite W1. pose proof (scanned_le c 0) as SC. pose proof (blen_nonneg c).
    rewrite costs_cons, exec_if.
    assert (C2 : cost (SIf (EBin BLt (EVar "i") (EInt 0)) [retErr "could not parse nul-term string"]) (("i", VInt i) :: e) <= 7).
    { etransitivity; [apply check_cost; reflexivity|]. cbn. lia. }
    cbn [GoLang.eval bind evalBin lift alookup]. change (String.eqb "i" "i") with true. cbn [bind evalBin lift].
    destruct (i <? 0) eqn:I0.
    { cbn [used]. unfold block. cbn [GoLang.execs GoLang.exec GoLang.eval bind lift retErr]. lia. }
    assert (IB : i < blen c) by (unfold i in *; pose proof (indexByte_bound c 0); lia).
    assert (SI : scanned c 0 = i + 1) by (apply scanned_index; exact I0).
    rewrite s64_small in * by lia.
    replace ((i + 1 <? 0) || (blen c <? i + 1)) with false in * by lia. cbn [used] in *.
    rewrite blen_skip in * by lia.
    rewrite costs_cons.
    assert (C3 : cost (SAssign2 L (LVar "cur") (EStringOf (ETo cur (EVar "i"))) (EFrom cur (EBin BAdd (EVar "i") (EInt 1)))) (("i", VInt i) :: e)
                 <= 15 + 2 * i).
    { cbn [GoCost.cost lexpr]. unfold work. cbn [esize extra cur].
      assert (E1 : eval (("i", VInt i) :: e) (ETo cur (EVar "i")) = Ok (VBytes (firstn (Z.to_nat i) c))).
      { cbn [GoLang.eval]. unfold cur. rewrite (eval_cur types cenv dat _ _ K1). cbn [bind alookup].
        change (String.eqb "i" "i") with true. cbn [bind].
        now replace ((i <? 0) || (blen c <? i)) with false by lia. }
      rewrite E1, blen_first by lia. pose proof (alloc_le i ltac:(lia)). lia. }
    destruct (exec _ (("i", VInt i) :: e)) as [? []]; rewrite ?costs_nil; lia.
  - destruct (Struct r nm) as [s|] eqn:HS; [|discriminate]. injection H as <-.
    assert (EX : Extern s = false) by (destruct (Extern s); [discriminate CB|auto]).
    cbn [GenDecode.decBase] in *.
    destruct (Hcall nm s c HS EX) as [X|(fields & args & HA & HF & HR)]; [contradiction|].
    pose proof (Hcost nm s c fields args (OK nm (or_introl eq_refl)) HS EX HA HF B NS) as CC.
    assert (LE := LT "err" (or_introl eq_refl)).
    assert (G1 : pget _ _ _ _ P (("err", VNil) :: e) = Some w) by (rewrite p_push_get; [auto|tauto]).
    assert (K1 : envok (("err", VNil) :: e) c) by (eapply envok_push; eauto; try discriminate; tauto).
    replace ((30 + K nm) * (used (dcall nm cenv c) c + 1)) with
      (30 * (used (dcall nm cenv c) c + 1) + K nm * (used (dcall nm cenv c) c + 1)) by ring.
    rewrite costs_cons. cbn [GoLang.exec zero]. change (cost (SVar "err" GError) e) with 1.
    rewrite costs_cons.
    rewrite (exec_assign types call n _ _ _ _ P _ (VStruct (camel nm) (zeros fields)) w) by
      (auto; cbn [GoLang.eval]; rewrite HF; reflexivity).
    rewrite p_push_set by tauto.
    set (e2 := pset _ _ _ _ P e (VStruct (camel nm) (zeros fields))).
    assert (G2 : pget _ _ _ _ P e2 = Some (VStruct (camel nm) (zeros fields))) by (eapply p_get_set; eauto).
    assert (K2 : envok (("err", VNil) :: e2) c).
    { unfold e2. rewrite <- (p_push_set _ _ _ _ P) by tauto. apply envok_place; auto. }
    assert (G2' : pget _ _ _ _ P (("err", VNil) :: e2) = Some (VStruct (camel nm) (zeros fields)))
      by (rewrite p_push_get; [auto|tauto]).
    assert (C2 : cost (SAssign L (ENew (camel nm))) (("err", VNil) :: e) = 2 + esize (lexpr L) + alloc mem (cellsOf fields)).
    { cbn [GoCost.cost]. unfold work. cbn [esize extra]. rewrite HF. lia. }
    rewrite C2, costs_cons.
    assert (C3 : cost (SParse "cur" "err" L cur (map EVar (scontexts s))) (("err", VNil) :: e2) =
                 2 + esize (lexpr L) + blen (scontexts s) + ccost (VStruct (camel nm) (zeros fields)) (VBytes c) args).
    { cbn [GoCost.cost]. rewrite (p_eval _ _ _ _ P _ _ G2'). change (eval (("err", VNil) :: e2) cur) with (eval (("err", VNil) :: e2) (EVar "cur")). rewrite (eval_cur types cenv dat _ _ K2), (mapM_ctx types cenv dat _ _ _ _ K2 HA).
      rewrite (args_work _ _ _ K2). rewrite plain_work by auto. unfold work, cur. cbn [esize extra]. lia. }
    rewrite C3.
    assert (C4 : forall e, costs [SIf (ENotNil (EVar "err")) [SReturn ENil (EVar "err")]] e <= 6).
    { intros e0. rewrite costs_cons, cost_if, plain_work by reflexivity. cbn [esize].
      assert (R3 : costs [SReturn ENil (EVar "err")] e0 = 3) by (rewrite costs_cons; change (cost (SReturn ENil (EVar "err")) e0) with 3; destruct (exec _ e0) as [? []]; reflexivity).
      rewrite R3.
      destruct (GoLang.eval types e0 (ENotNil (EVar "err"))) as [[| | | | | | |[]]| | |]; destruct (exec _ e0) as [? []]; rewrite ?costs_nil; lia. }
    destruct (exec (SParse _ _ _ _ _) _) as [e3 []]; try specialize (C4 e3); lia.
Qed.

(* ---------- arrays ---------- *)

Lemma stuck_bind : forall {A B} (o : outcome A) (k : A -> outcome B), bind o k <> stuck -> o <> stuck.
Proof. intros A B o k H E. apply H. now rewrite E. Qed.

Lemma base_rate : forall t, checkBase r (map fst cenv) t = true -> 30 <= rateT most r K t.
Proof using HK.
  clear - HK.
  intros t H. destruct t as [sz cst| | | |nm|b i|b l]; cbn [rateT checkBase] in *; try discriminate; try lia.
  - assert (0 <= ranges cst) by (destruct cst; cbn; [apply blen_nonneg|lia]). lia.
  all: try (specialize (HK nm); lia).
Qed.

Section Arr.
Variable L : lval.
Variable pv : list string.
Variable root : string.
Variable P : place L pv root.
Hypothesis NC : ~ In "cur" pv.
Hypothesis RD : root <> "data".
Hypothesis RC : forall w, alookup root cenv <> Some w.
Hypothesis PL : plainE (lexpr L) = true.
Hypothesis SL : esize (lexpr L) <= 2.
Notation get := (pget _ _ _ _ P).
Notation set := (pset _ _ _ _ P).

Lemma for_cost : forall t body bound (HI : ~ In "idx" pv) k q z kb,
  parseType camel r rv (LIdx L (EVar "idx")) t = Ok body ->
  checkBase r (map fst cenv) t = true -> (forall x, In x (structsT t) -> okn x) ->
  In "idx" locs ->
  (forall y, In y (localsT t) -> ~ In y ("idx" :: pv) /\ In y locs) ->
  0 <= k < two63 -> plainE bound = true -> esize bound <= 3 ->
  0 <= q -> 0 <= z -> rateT most r K t <= kb -> rateT most r K t <= q + z ->
  (forall c v c', blen c < two63 -> decBase t c = Ok (v, c') ->
     rateT most r K t * (blen c - blen c' + 1) + 10 <= q + kb * (blen c - blen c')) ->
  forall e0, (forall i c v, eval (("idx", VInt i) :: assign "cur" (VBytes c) (set e0 v)) bound = Ok (VInt k)) ->
  forall m i c0 c l w, envok e0 c0 -> get e0 = Some w -> blen l = k -> 0 <= i <= k -> blen c < two63 ->
  decFor r dcall cenv d m t (k - i) c <> stuck ->
  costFor mem types call ccost n "idx" bound body m (("idx", VInt i) :: assign "cur" (VBytes c) (set e0 (VList l)))
    <= q * (k - i) + kb * used (decFor r dcall cenv d m t (k - i) c) c + 10 + z.
Proof.
  intros t body bound HI k q z kb PT CB OK LI LT HK' PB SB Q Z0 KB QZ HQ e0 HB.
  assert (RI : "idx" <> root) by (intros E; apply HI; rewrite E; apply (p_root _ _ _ _ P)).
  assert (RCU : root <> "cur") by (intros X; apply NC; rewrite <- X; apply (p_root _ _ _ _ P)).
  pose proof (base_rate t CB) as BR.
  induction m as [|m IH]; intros i c0 c l w K0' G BL I B NS; cbn [decFor costFor] in *.
  - set (e := ("idx", VInt i) :: assign "cur" (VBytes c) (set e0 (VList l))).
    rewrite plain_work by (cbn; auto). cbn [esize].
    cbn [GoLang.eval]. unfold e at 1. cbn [alookup]. change (String.eqb "idx" "idx") with true. cbn [bind].
    unfold e at 1. rewrite HB. cbn [bind evalBin].
    pose proof (blen_nonneg c).
    match goal with |- context [used ?o c] => assert (0 <= used o c) by (destruct (k - i <=? 0); cbn [used]; lia); set (U := used o c) in * end.
    assert (0 <= q * (k - i)) by nia. assert (0 <= kb * U) by nia.
    destruct (i <? k); lia.
  - set (e := ("idx", VInt i) :: assign "cur" (VBytes c) (set e0 (VList l))).
    rewrite plain_work by (cbn; auto). cbn [esize].
    cbn [GoLang.eval]. unfold e at 1. cbn [alookup]. change (String.eqb "idx" "idx") with true. cbn [bind].
    unfold e at 1. rewrite HB. cbn [bind evalBin].
    destruct (k - i <=? 0) eqn:D.
    + replace (i <? k) with false by lia. cbn [used]. nia.
    + replace (i <? k) with true by lia.
      assert (K0 : envok (assign "cur" (VBytes c) (set e0 (VList l))) c)
        by (eapply envok_cur; eauto; apply envok_place; eauto).
      assert (K1 : envok e c) by (eapply envok_push; eauto; discriminate).
      assert (G0 : get (set e0 (VList l)) = Some (VList l)) by (eapply p_get_set; eauto).
      assert (G1 : get e = Some (VList l)).
      { unfold e. rewrite p_push_get, p_assign_get by auto. auto. }
      destruct (nthZ_some l i) as [u Hu]; [lia|].
      assert (G2 : pget _ _ _ _ (idxPlace types P HI) e = Some u).
      { cbn [idxPlace pget]. unfold idxGet. rewrite G1. unfold e. cbn [alookup].
        change (String.eqb "idx" "idx") with true. cbn iota. exact Hu. }
      assert (NC' : ~ In "cur" ("idx" :: pv)) by (intros [E|E]; [discriminate|auto]).
      pose proof (base_sim camel r types call dcall n cenv dat rv ty locs Hlocs Hcenv Hcall t _ _ _ (idxPlace types P HI) body e c u PT CB K1 G2 NC' RD RC LT) as S.
      pose proof (base_cost t _ _ _ (idxPlace types P HI) body e c u PT CB K1 G2 NC' RD RC LT
        ltac:(cbn [lexpr plainE]; now rewrite PL) ltac:(cbn [lexpr esize]; lia) OK B (stuck_bind _ _ NS)) as CC.
      pose proof (blen_nonneg c).
      unfold block. destruct (execs body e) as [e1 res].
      destruct (decBase t c) as [[v c1]|er|pm|] eqn:DB; cbn [sim bind fst snd used] in S, NS, CC |- *.
      * destruct S as (pre & Hpre & E). injection E as -> ->.
        assert (PS : idxSet types P e v =
                     ("idx", VInt i) :: assign "cur" (VBytes c) (set e0 (VList (updN l (Z.to_nat i) v)))).
        { unfold idxSet. rewrite G1. unfold e at 1. cbn [alookup].
          change (String.eqb "idx" "idx") with true. cbn iota. unfold e.
          rewrite p_push_set, p_assign_set by auto. now rewrite (p_set_set _ _ _ _ P _ _ _ _ G). }
        cbn [idxPlace pset]. rewrite PS. rewrite assign_push by discriminate. rewrite assign_assign.
        rewrite leave_app by (unfold e; cbn [List.length]; rewrite !assign_len, !p_len; reflexivity).
        rewrite plain_work by reflexivity. cbn [esize].
        cbn [alookup]. change (String.eqb "idx" "idx") with true. cbn [bind evalBin lift assign].
        change (String.eqb "idx" "idx") with true. cbn iota.
        rewrite s64_small by (unfold two63 in *; lia).
        pose proof (HQ _ _ _ B DB) as HQ1. pose proof (decBase_left r dcall cenv dat Hleft t c v c1 B DB) as LE.
        replace (k - i - 1) with (k - (i + 1)) in * by lia.
        assert (BL' : blen (updN l (Z.to_nat i) v) = k) by (unfold blen in *; rewrite updN_len; auto).
        specialize (IH (i + 1) c0 c1 (updN l (Z.to_nat i) v) w K0' G BL' ltac:(lia) ltac:(lia) (stuck_bind _ _ NS)).
        assert (UE : used (bind (decFor r dcall cenv d m t (k - (i + 1)) c1) (fun '(vs, c2) => Ok (v :: vs, c2))) c
                     = blen c - blen c1 + used (decFor r dcall cenv d m t (k - (i + 1)) c1) c1 \/
                     used (bind (decFor r dcall cenv d m t (k - (i + 1)) c1) (fun '(vs, c2) => Ok (v :: vs, c2))) c
                     >= blen c - blen c1 + used (decFor r dcall cenv d m t (k - (i + 1)) c1) c1).
        { destruct (decFor r dcall cenv d m t (k - (i + 1)) c1) as [[vs c2]| | |]; cbn [bind used]; lia. }
        assert (UN : 0 <= used (decFor r dcall cenv d m t (k - (i + 1)) c1) c1).
        { apply used_nonneg. intros v' c' X. eapply decFor_left; eauto. lia. }
        unfold e in CC |- *. cbn [app] in *.
        set (U := used (bind _ _) c) in *. set (U1 := used (decFor r dcall cenv d m t (k - (i + 1)) c1) c1) in *.
        assert (kb * (blen c - blen c1) + kb * U1 <= kb * U) by nia.
        lia.
      * unfold leave in *. destruct S as (e' & E). injection E as -> ->. nia.
      * destruct S as [->|(e' & E)]; [exfalso; apply NS; reflexivity|]. injection E as -> ->. nia.
      * destruct S as (e' & E). injection E as -> ->. nia.
Qed.

Lemma while_cost : forall t body g (HT : ~ In "tmp" pv),
  parseType camel r rv (LVar "tmp") t = Ok body ->
  checkBase r (map fst cenv) t = true -> (forall x, In x (structsT t) -> okn x) ->
  eats (Constant r) (Struct r) t ->
  In "tmp" locs ->
  (forall y, In y (localsT t) -> y <> "tmp" /\ ~ In y pv /\ In y locs) ->
  forall e0 m c0 c l w, envok e0 c0 -> get e0 = Some w -> blen c < two63 ->
  decWhile r dcall cenv d m t c <> stuck ->
  costWhile mem types call ccost n (EBin BGt (ELen cur) (EInt 0))
         ([SVar "tmp" g] ++ body ++ [SAssign L (EAppend (lexpr L) (EVar "tmp"))]) m
         (assign "cur" (VBytes c) (set e0 (VList l)))
    <= (36 + 2 * rateT most r K t) * used (decWhile r dcall cenv d m t c) c + 10 + saved mem (blen l).
Proof.
  intros t body g HT PT CB OK EA LTm LT e0.
  assert (RCU : root <> "cur") by (intros X; apply NC; rewrite <- X; apply (p_root _ _ _ _ P)).
  pose proof (base_rate t CB) as BR.
  induction m as [|m IH]; intros c0 c l w K0 G B NS; cbn [decWhile costWhile] in *.
  all: pose proof (saved_nonneg mem (blen l) (blen_nonneg l)) as SV.
  all: assert (K1 : envok (assign "cur" (VBytes c) (set e0 (VList l))) c)
        by (eapply envok_cur; eauto; apply envok_place; eauto).
  all: rewrite plain_work by reflexivity; cbn [esize cur].
  all: assert (ET : eval (assign "cur" (VBytes c) (set e0 (VList l))) (EBin BGt (ELen cur) (EInt 0)) = Ok (VBool (0 <? blen c)))
        by (cbn [GoLang.eval]; unfold cur at 1; rewrite (eval_cur types cenv dat _ _ K1); reflexivity).
  all: rewrite ET; pose proof (blen_nonneg c).
  - destruct (0 <? blen c); destruct (blen c <=? 0) eqn:D; cbn [used] in *; nia.
  - destruct (blen c <=? 0) eqn:D.
    + replace (0 <? blen c) with false by lia. cbn [used]. nia.
    + replace (0 <? blen c) with true by lia.
      set (e := assign "cur" (VBytes c) (set e0 (VList l))) in *.
      assert (G0 : get (set e0 (VList l)) = Some (VList l)) by (eapply p_get_set; eauto).
      assert (G1 : get e = Some (VList l)) by (unfold e; rewrite p_assign_get; auto).
      assert (K2 : envok (("tmp", zero g) :: e) c) by (eapply envok_push; eauto; discriminate).
      assert (TC : forall w, alookup "tmp" cenv <> Some w).
      { intros u Hu. apply Hcenv in Hu. tauto. }
      assert (LT' : forall y, In y (localsT t) -> ~ In y ["tmp"] /\ In y locs).
      { intros y Hy. destruct (LT y Hy) as (A & B0 & C). split; auto. intros [E|[]]; auto. }
      assert (GT : pget _ _ _ _ (varPlace types "tmp") (("tmp", zero g) :: e) = Some (zero g)) by reflexivity.
      assert (NT : ~ In "cur" ["tmp"]) by (intros [E|[]]; discriminate).
      pose proof (base_sim camel r types call dcall n cenv dat rv ty locs Hlocs Hcenv Hcall t _ _ _ (varPlace types "tmp") body (("tmp", zero g) :: e) c (zero g) PT CB K2 GT NT
                    ltac:(discriminate) TC LT') as S.
      pose proof (base_cost t _ _ _ (varPlace types "tmp") body (("tmp", zero g) :: e) c (zero g) PT CB K2 GT NT
                    ltac:(discriminate) TC LT' eq_refl ltac:(cbn; lia) OK B (stuck_bind _ _ NS)) as CC.
      unfold block. cbn [app]. rewrite costs_cons, execs_cons. cbn [GoLang.exec]. change (cost (SVar "tmp" g) e) with 1.
      rewrite costs_app, execs_app.
      assert (CA : forall e9, eval e9 (lexpr L) = Ok (VList l) -> costs [SAssign L (EAppend (lexpr L) (EVar "tmp"))] e9 <= 7 + moving mem (blen l)).
      { intros e9 EL. rewrite costs_cons. cbn [GoCost.cost]. unfold work. cbn [esize extra]. rewrite (plain_extra mem types e9 _ PL), EL.
        destruct (exec _ e9) as [? []]; rewrite ?costs_nil; lia. }
      destruct (execs body (("tmp", zero g) :: e)) as [e1 res].
      destruct (decBase t c) as [[v c1]|er|pm|] eqn:DB; cbn [sim bind fst snd used] in S, NS, CC |- *.
      * destruct S as (pre & Hpre & E). injection E as -> ->. cbn [varPlace pset assign].
        change (String.eqb "tmp" "tmp") with true. cbn iota.
        set (e2 := assign "cur" (VBytes c1) (set e0 (VList l))).
        replace (assign "cur" (VBytes c1) e) with e2 by (unfold e, e2; now rewrite assign_assign).
        assert (PT' : forall y, In y (map fst pre) -> y <> "tmp" /\ ~ In y pv) by (intros y Hy; apply Hpre, LT in Hy; tauto).
        assert (G2 : get (pre ++ ("tmp", v) :: e2) = Some (VList l)).
        { rewrite p_app_get by (intros y Hy; apply PT'; auto). rewrite p_push_get by auto. unfold e2. rewrite p_assign_get; auto. }
        assert (CA1 := CA (pre ++ ("tmp", v) :: e2) (p_eval _ _ _ _ P _ _ G2)). rewrite (saved_succ mem (blen l) (blen_nonneg l)) in CA1.
        rewrite execs_cons, (exec_assign types call n _ _ _ _ P _ (VList (l ++ [v])) (VList l)); auto.
        2:{ cbn [GoLang.eval]. rewrite (p_eval _ _ _ _ P _ _ G2). cbn [bind].
            rewrite alookup_app_notin by (intros Hy; apply PT' in Hy; tauto). reflexivity. }
        rewrite p_app_set by (intros y Hy; apply PT'; auto). rewrite p_push_set by auto.
        cbn [GoLang.execs]. change (pre ++ ("tmp", v) :: set e2 (VList (l ++ [v]))) with (pre ++ [("tmp", v)] ++ set e2 (VList (l ++ [v]))).
        rewrite app_assoc.
        rewrite leave_app by (unfold e2, e; rewrite !p_len, !assign_len, !p_len; reflexivity).
        unfold e2 at 2. rewrite p_assign_set by auto. rewrite (p_set_set _ _ _ _ P _ _ _ _ G).
        pose proof (Hless _ _ _ _ EA B DB) as LE.
        specialize (IH c0 c1 (l ++ [v]) w K0 G ltac:(lia) (stuck_bind _ _ NS)). cbn [app] in IH.
        assert (BL1 : blen (l ++ [v]) = blen l + 1) by (unfold blen; rewrite app_length; cbn [List.length]; lia). rewrite BL1 in IH.
        assert (UE : blen c - blen c1 + used (decWhile r dcall cenv d m t c1) c1 <=
                     used (bind (decWhile r dcall cenv d m t c1) (fun '(vs, c2) => Ok (v :: vs, c2))) c).
        { destruct (decWhile r dcall cenv d m t c1) as [[vs c2]| | |]; cbn [bind used]; lia. }
        set (U := used (bind _ _) c) in *. set (U1 := used (decWhile r dcall cenv d m t c1) c1) in *.
        assert ((36 + 2 * rateT most r K t) * (blen c - blen c1) + (36 + 2 * rateT most r K t) * U1 <= (36 + 2 * rateT most r K t) * U) by nia.
        assert (rateT most r K t * (blen c - blen c1 + 1) + 36 <= (36 + 2 * rateT most r K t) * (blen c - blen c1)) by nia.
        lia.
      * destruct S as (e' & E). injection E as -> ->. nia.
      * destruct S as [->|(e' & E)]; [exfalso; apply NS; reflexivity|]. injection E as -> ->. nia.
      * destruct S as (e' & E). injection E as -> ->. nia.
Qed.
End Arr.

(* ---------- lengths ---------- *)

Notation menv := (menv cenv dat rv ty).
Notation upd := (upd rv ty).

Lemma tail_cost : forall e, costs [assertEnd; SAssign (LVar "cur") (EVar "restore")] e <= 12.
Proof.
  intros e. replace 12 with (9 + 3) by lia. apply costs_step; [|intros e1|lia].
  - etransitivity; [apply check_cost; reflexivity|]. cbn. lia.
  - rewrite costs_cons, assign_cost by reflexivity. cbn [lexpr esize]. destruct (exec _ e1) as [? []]; rewrite ?costs_nil; lia.
Qed.

Lemma within_cost : forall {A} body dbody nx k KB e fs c, 0 <= KB ->
  menv e fs c -> In "restore" locs -> k <= blen c -> blen c < two63 ->
  plainE nx = true -> esize nx <= 4 ->
  eval e nx = Ok (VInt k) -> (forall v, eval (("restore", v) :: e) nx = Ok (VInt k)) -> inv fs c ->
  (forall e1 c1, menv e1 fs c1 -> inv fs c1 -> blen c1 < two63 -> dbody c1 <> stuck -> costs body e1 <= KB * (used (dbody c1) c1 + 1)) ->
  decWithin k c dbody <> stuck ->
  costs ([SDecl "restore" (EFrom cur nx); SAssign (LVar "cur") (ETo cur nx)] ++ body ++
         [assertEnd; SAssign (LVar "cur") (EVar "restore")]) e
    <= KB * (used (@decWithin A k c dbody) c + 1) + 28.
Proof.
  intros A body dbody nx k KB e fs c KB0 M LR KLE B PN SN E1 E2 IV HB NS.
  pose proof (blen_nonneg c) as BC.
  assert (U0 : 0 <= used (decWithin k c dbody) c).
  { unfold decWithin. destruct (blen c <? k); [exact BC|]. destruct (k <? 0) eqn:K0; [exact BC|].
    destruct (dbody _) as [[a c1]| | |]; cbn [bind used]; auto. destruct (0 <? blen c1); cbn [used]; auto.
    rewrite blen_skip; lia. }
  unfold decWithin in *. replace (blen c <? k) with false in * by lia.
  cbn [app]. rewrite costs_cons, decl_cost by (cbn; auto).
  cbn [GoLang.exec GoLang.eval]. change (eval e cur) with (eval e (EVar "cur")). rewrite (eval_cur types cenv dat _ _ (proj1 M)). cbn [bind]. rewrite E1. cbn [bind esize cur].
  destruct (k <? 0) eqn:K0.
  { cbn [orb lift]. nia. }
  replace (blen c <? k) with false by lia. cbn [orb lift].
  set (rest := skipn (Z.to_nat k) c) in *. set (part := firstn (Z.to_nat k) c) in *.
  assert (M1 : menv (("restore", VBytes rest) :: e) fs c) by (eapply menv_push; eauto; discriminate).
  rewrite costs_cons, assign_cost by (cbn; auto). cbn [lexpr esize cur].
  rewrite (exec_assign_cur types call n cenv dat _ c _ (VBytes part)); [|apply M1|].
  2:{ cbn [GoLang.eval]. unfold cur. rewrite (eval_cur types cenv dat _ _ (proj1 M1)). cbn [bind]. rewrite E2. cbn [bind].
      rewrite K0. replace (blen c <? k) with false by lia. reflexivity. }
  rewrite assign_push by discriminate.
  assert (M2 : menv (("restore", VBytes rest) :: assign "cur" (VBytes part) e) fs part).
  { rewrite <- assign_push by discriminate. eapply menv_cur; eauto. }
  rewrite costs_app.
  assert (BP : blen part = k) by (apply blen_first; lia).
  specialize (HB _ _ M2 (Hpart _ _ _ IV) ltac:(lia) (stuck_bind _ _ NS)).
  assert (UU : used (dbody part) part <= used ('(a, c1) <- dbody part ;; if 0 <? blen c1 then Err "trailing data disallowed" else Ok (a, rest)) c).
  { destruct (dbody part) as [[a c1]| | |]; cbn [bind used]; try lia. pose proof (blen_nonneg c1).
    destruct (0 <? blen c1); cbn [used]; try lia. unfold rest. rewrite blen_skip by lia. lia. }
  match type of UU with ?u1 <= ?u => set (U := u) in *; set (U1 := u1) in * end.
  assert (KB * (U1 + 1) <= KB * (U + 1)) by nia.
  destruct (execs body _) as [e3 []]; try pose proof (tail_cost e3); lia.
Qed.

Lemma refExpr_size : forall f, plainE (refExpr camel rv f) = true /\ esize (refExpr camel rv f) = 2.
Proof. intros f. unfold refExpr. destruct (String.eqb (rscope f) ""); auto. Qed.

Lemma constrained_cost : forall {A} body dbody l ss KB e fs c, 0 <= KB ->
  constrained camel r rv l body = Ok ss -> menv e fs c -> In "restore" locs -> blen c < two63 -> inv fs c ->
  (forall e1 c1, menv e1 fs c1 -> inv fs c1 -> blen c1 < two63 -> dbody c1 <> stuck -> costs body e1 <= KB * (used (dbody c1) c1 + 1)) ->
  decConstr camel r cenv fs c l dbody <> stuck ->
  costs ss e <= KB * (used (@decConstr camel r cenv A fs c l dbody) c + 1) + 40.
Proof.
  intros A body dbody l ss KB e fs c KB0 H M LR B IV HB NS. unfold constrained in H.
  apply bind_ok in H as ([check nx] & H1 & H). injection H as <-. pose proof (blen_nonneg c) as BC.
  destruct l as [f|i]; cbn [decConstr] in *.
  - injection H1 as <- <-. destruct (ref_cases camel cenv fs f) as [[x Hx]|X]; [|rewrite X in NS; exfalso; apply NS; reflexivity].
    rewrite Hx in *. cbn [bind] in *. destruct (refExpr_size f) as [R1 R2].
    assert (EV : forall e1, menv e1 fs c -> eval e1 (EToInt (refExpr camel rv f)) = Ok (VInt (s64 x))).
    { intros e1 M1. cbn [GoLang.eval]. rewrite (ref_eval camel types cenv dat rv ty _ _ _ _ _ M1 Hx). reflexivity. }
    cbn [app]. rewrite costs_cons.
    assert (C1 : cost (lengthCheck (EToInt (refExpr camel rv f))) e <= 10).
    { etransitivity; [apply check_cost; cbn; auto|]. cbn [esize cur]. lia. }
    destruct (blen c <? s64 x) eqn:D.
    + unfold decWithin. rewrite D. cbn [used].
      rewrite (check_fail camel r types call dcall n cenv dat rv ty locs Hcenv Hcall _ c _ (s64 x)); [|apply M|auto|lia]. nia.
    + rewrite (check_pass camel r types call dcall n cenv dat rv ty locs Hcenv Hcall _ c _ (s64 x)); [|apply M|auto|lia].
      pose proof (within_cost body dbody (EToInt (refExpr camel rv f)) (s64 x) KB e fs c KB0 M LR ltac:(lia) B
        ltac:(cbn; auto) ltac:(cbn [esize]; lia) (EV e M)
        ltac:(intros v; apply EV; eapply menv_push; eauto; discriminate) IV HB NS) as W.
      cbn [app] in W. lia.
  - apply bind_ok in H1 as (k & Hk & H1). injection H1 as <- <-. rewrite Hk in *. cbn [bind] in *.
    unfold decLeaving in *. destruct (k <? 0) eqn:K0; [exfalso; apply NS; reflexivity|].
    cbn [app]. rewrite costs_cons.
    assert (C1 : cost (lengthCheck (EInt k)) e <= 10).
    { etransitivity; [apply check_cost; cbn; auto|]. cbn [esize cur]. lia. }
    destruct (blen c <? k) eqn:D.
    + cbn [used].
      rewrite (check_fail camel r types call dcall n cenv dat rv ty locs Hcenv Hcall _ c _ k); [|apply M|auto|lia]. nia.
    + rewrite (check_pass camel r types call dcall n cenv dat rv ty locs Hcenv Hcall _ c _ k); [|apply M|auto|lia].
      assert (EV : forall e1, menv e1 fs c -> eval e1 (EBin BSub (ELen cur) (EInt k)) = Ok (VInt (s64 (blen c - k)))).
      { intros e1 M1. cbn [GoLang.eval]. unfold cur. rewrite (eval_cur types cenv dat _ _ (proj1 M1)). reflexivity. }
      pose proof (within_cost body dbody (EBin BSub (ELen cur) (EInt k)) (s64 (blen c - k)) KB e fs c KB0 M LR
        ltac:(rewrite s64_small; lia) B eq_refl ltac:(cbn; lia) (EV e M)
        ltac:(intros v; apply EV; eapply menv_push; eauto; discriminate) IV HB NS) as W.
      cbn [app] in W. lia.
Qed.

(* ---------- fields ---------- *)

(** Elements of arrays take bytes; the length of an array is at most [most]. *)
Definition frugal (t : type) : Prop :=
  match t with
  | TVar b (Some (LRef f)) => (withMemory mem = true -> forall fs c x, inv fs c -> refVal camel fs cenv f = Ok x -> s64 x <= most) /\
                              eats (Constant r) (Struct r) b
  | TVar b _ => eats (Constant r) (Struct r) b
  | _ => True
  end.

Lemma type_cost : forall F t ss e fs c w,
  parseType camel r rv (LField (LVar rv) F) t = Ok ss ->
  simType camel r cenv F t -> incl (localsT t) locs -> frugal t -> (forall x, In x (structsT t) -> okn x) ->
  menv e fs c -> alookup F fs = Some w -> shapeOf r t w -> inv fs c ->
  blen c < two63 -> decType camel r dcall n cenv d fs t c <> stuck ->
  costs ss e <= rateT most r K t * (used (decType camel r dcall n cenv d fs t c) c + 1).
Proof.
  intros F t ss e fs c w H ST LT FR OK M HF SH IV B NS.
  destruct (field_place types rv F) as (P & PG0 & PS0).
  pose proof (blen_nonneg c) as BC.
  assert (RCU : rv <> "cur") by (intros E; apply Hrv; rewrite E; tauto). assert (RDA : rv <> "data") by (intros E; apply Hrv; rewrite E; tauto).
  assert (RCE : forall v, alookup rv cenv <> Some v) by (intros v E; apply Hcenv in E; tauto).
  assert (NC : ~ In "cur" [rv]) by (intros [E|[]]; apply RCU; auto).
  assert (PG : forall e1 c1 fs1, menv e1 fs1 c1 -> pget _ _ _ _ P e1 = alookup F fs1).
  { intros e1 c1 fs1 [_ R]. rewrite PG0. unfold fieldGet. now rewrite R. }
  assert (PS : forall e1 c1 fs1 v, menv e1 fs1 c1 -> pset _ _ _ _ P e1 v = assign rv (VStruct ty (assign F v fs1)) e1).
  { intros. rewrite PS0. eapply field_set; eauto. }
  assert (LP : forall y, In y locs -> ~ In y [rv]) by (intros y I [<-|[]]; tauto).
  assert (G : pget _ _ _ _ P e = Some w) by (rewrite (PG _ _ _ M); auto).
  assert (PL : plainE (lexpr (LField (LVar rv) F)) = true) by reflexivity.
  assert (SL : esize (lexpr (LField (LVar rv) F)) <= 2) by (cbn; lia).
  assert (BASE : checkBase r (map fst cenv) t = true -> decBase t c <> stuck ->
    costs ss e <= rateT most r K t * (used (decBase t c) c + 1)).
  { intros CB NB.
    assert (LT2 : forall y, In y (localsT t) -> ~ In y [rv] /\ In y locs) by (intros y I; split; auto).
    apply (base_cost t _ _ _ P ss e c w H CB (proj1 M) G NC RDA RCE LT2 PL ltac:(lia) OK B NB). }
  destruct t as [sz cst| | | |nm|b s|b cst]; try (apply BASE; [exact ST|exact NS]).
  - (* fixed *)
    clear BASE. cbn [simType shapeOf localsT] in *. destruct ST as [CB GC]. destruct SH as (l & -> & LK).
    cbn [parseType] in H. apply bind_ok in H as (k & Hk & H). apply bind_ok in H as (body & Hb & H). injection H as <-.
    specialize (LK _ Hk). cbn [decType] in *. rewrite Hk in *. cbn [bind] in *.
    assert (KB : 0 <= k < two63 /\ countOf r s = k).
    { unfold goodCount in GC. unfold countOf. apply integerOf_value in Hk. rewrite Hk in *. split; [lia|auto]. }
    destruct KB as [KB KC].
    assert (HI : ~ In "idx" [rv]) by (apply LP, LT; cbn; auto).
    assert (LT2 : forall y, In y (localsT b) -> ~ In y ["idx"; rv] /\ In y locs).
    { intros y I. assert (In y locs) by (apply LT; cbn; auto). split; auto. intros [E|E]; [|apply (LP y); auto].
      subst y. destruct (checkBase_locals r cenv locs Hlocs _ _ CB I); discriminate. }
    pose proof (base_rate b CB) as BR.
    pose proof (for_cost _ _ _ P NC RDA RCE PL SL b body (EInt k) HI k (rateT most r K b + 10) 0 (rateT most r K b) Hb CB OK
                  (LT "idx" (or_introl eq_refl)) LT2 KB eq_refl ltac:(cbn; lia) ltac:(lia) ltac:(lia) ltac:(lia) ltac:(lia)
                  ltac:(intros; nia) e ltac:(reflexivity) n 0 c c l (VList l) (proj1 M) G LK ltac:(lia) B) as S.
    replace (k - 0) with k in S by lia. specialize (S (stuck_bind _ _ NS)).
    assert (E0 : assign "cur" (VBytes c) (pset _ _ _ _ P e (VList l)) = e).
    { rewrite (PS _ _ _ _ M). rewrite (assign_same F) by auto. apply (upd_id _ _ _ _ _ _ _ M). }
    rewrite E0 in S. rewrite costs_cons, cost_for. cbn [rateT]. rewrite KC.
    assert (UE : used ('(vs, c1) <- decFor r dcall cenv d n b k c ;; Ok (VList vs, c1)) c = used (decFor r dcall cenv d n b k c) c).
    { destruct (decFor r dcall cenv d n b k c) as [[vs c1]| | |]; reflexivity. }
    assert (U0 : 0 <= used (decFor r dcall cenv d n b k c) c).
    { apply used_nonneg. intros v' c' X. eapply decFor_left; eauto. }
    assert (UZ : k = 0 -> used (decFor r dcall cenv d n b k c) c = 0).
    { intros ->. destruct n; cbn [decFor]; cbn; lia. }
    rewrite UE. set (U := used (decFor r dcall cenv d n b k c) c) in *.
    assert ((rateT most r K b + 10) * k + rateT most r K b * U + 11 <= (20 + k * (20 + rateT most r K b)) * (U + 1)).
    { destruct (Z.eq_dec k 0) as [K0|K0]; [rewrite K0, (UZ K0); lia|]. nia. }
    destruct (exec _ e) as [e1 []]; rewrite ?costs_nil; lia.
  - (* variable *)
    clear BASE SH.
    assert (WH : forall g body e1 c1, checkBase r (map fst cenv) b = true -> incl ("tmp" :: localsT b) locs ->
      eats (Constant r) (Struct r) b ->
      parseType camel r rv (LVar "tmp") b = Ok body -> menv e1 fs c1 -> blen c1 < two63 ->
      ('(vs, c2) <- decWhile r dcall cenv d n b c1 ;; Ok (VList vs, c2)) <> stuck ->
      costs [SAssign (LField (LVar rv) F) (EMake g (EInt 0));
          SWhile (EBin BGt (ELen cur) (EInt 0))
            ([SVar "tmp" g] ++ body ++
             [SAssign (LField (LVar rv) F) (EAppend (lexpr (LField (LVar rv) F)) (EVar "tmp"))])] e1
        <= (40 + 2 * rateT most r K b) * (used ('(vs, c2) <- decWhile r dcall cenv d n b c1 ;; Ok (VList vs, c2)) c1 + 1)).
    { intros g body e1 c1 CB LT1 EA Hb M1 B1 NS1. pose proof (base_rate b CB) as BR.
      assert (G1 : pget _ _ _ _ P e1 = Some w) by (rewrite (PG _ _ _ M1); auto).
      rewrite costs_cons, (exec_assign types call n _ _ _ _ P _ (VList []) w) by auto.
      assert (C1 : cost (SAssign (LField (LVar rv) F) (EMake g (EInt 0))) e1 <= 8).
      { cbn [GoCost.cost]. unfold work. cbn [esize extra lexpr].
        assert (EM : eval e1 (EMake g (EInt 0)) = Ok (VList [])) by reflexivity. rewrite EM. cbn [blen List.length].
        change (blen []) with 0. unfold alloc. destruct (withMemory mem); lia. }
      rewrite costs_cons, cost_while.
      assert (HT : ~ In "tmp" [rv]) by (apply LP, LT1; cbn; auto).
      assert (LT2 : forall y, In y (localsT b) -> y <> "tmp" /\ ~ In y [rv] /\ In y locs).
      { intros y I. assert (In y locs) by (apply LT1; cbn; auto). repeat split; auto.
        intros ->. destruct (checkBase_locals r cenv locs Hlocs _ _ CB I); discriminate. }
      pose proof (while_cost _ _ _ P NC RDA RCE PL SL b body g HT Hb CB OK EA (LT1 "tmp" (or_introl eq_refl)) LT2
                    e1 n c1 c1 [] w (proj1 M1) G1 B1 (stuck_bind _ _ NS1)) as S.
      assert (E0 : assign "cur" (VBytes c1) (pset _ _ _ _ P e1 (VList [])) = pset _ _ _ _ P e1 (VList [])).
      { apply assign_same. rewrite (PS _ _ _ _ M1). rewrite alookup_assign_other by (intros E; apply RCU; auto).
        apply (ek_cur _ _ _ _ (proj1 M1)). }
      rewrite E0 in S.
      assert (UE : used ('(vs, c2) <- decWhile r dcall cenv d n b c1 ;; Ok (VList vs, c2)) c1 = used (decWhile r dcall cenv d n b c1) c1).
      { destruct (decWhile r dcall cenv d n b c1) as [[vs c2]| | |]; reflexivity. }
      assert (U0 : 0 <= used (decWhile r dcall cenv d n b c1) c1).
      { apply used_nonneg. intros v' c' X. pose proof (decWhile_left r dcall cenv dat Hleft n b c1 _ _ X). pose proof (blen_nonneg c1). lia. }
      rewrite UE. set (U := used (decWhile r dcall cenv d n b c1) c1) in *.
      change (blen (@nil value)) with 0 in S. rewrite saved_zero in S. assert ((36 + 2 * rateT most r K b) * U + 20 <= (40 + 2 * rateT most r K b) * (U + 1)) by nia.
      destruct (exec _ _) as [e2 []]; rewrite ?costs_nil; lia. }
    destruct cst as [[f|i]|]; cbn [simType localsT frugal rateT] in *; cbn [parseType] in H; cbn [decType] in *.
    + (* by reference *)
      destruct ST as [CB NF]. destruct FR as [MF EA]. apply bind_ok in H as (g & Hg & H). apply bind_ok in H as (body & Hb & H). injection H as <-.
      destruct (ref_cases camel cenv fs f) as [[x Hx]|X]; [|rewrite X in NS; exfalso; apply NS; reflexivity]. rewrite Hx in *. cbn [bind] in *. rewrite Hg in *. cbn [bind] in *.
      pose proof (base_rate b CB) as BR.
      assert (EV : forall e1 c1, menv e1 fs c1 -> eval e1 (EToInt (refExpr camel rv f)) = Ok (VInt (s64 x))).
      { intros e1 c1 M1. cbn [GoLang.eval]. rewrite (ref_eval camel types cenv dat rv ty _ _ _ _ _ M1 Hx). reflexivity. }
      destruct (refExpr_size f) as [R1 R2].
      assert (CE : cells g = 1) by (destruct b; try discriminate CB; cbn [tipe] in Hg; injection Hg as <-; reflexivity).
      assert (C1 : cost (SAssign (LField (LVar rv) F) (EMake g (EToInt (refExpr camel rv f)))) e <= 10 + most).
      { cbn [GoCost.cost]. unfold work. cbn [esize extra lexpr]. rewrite (plain_extra mem types e (refExpr camel rv f)) by auto.
        change (eval e (EMake g (EToInt (refExpr camel rv f)))) with
          (v <- eval e (EToInt (refExpr camel rv f)) ;;
           match v with
           | VInt z => if (z <? 0) || (maxAlloc <? z * gsize g) then Panic "makeslice: len out of range"
                       else Ok (VList (repeat (zero g) (Z.to_nat z)))
           | _ => stuck end).
        rewrite (EV _ _ M). cbn [bind]. destruct ((s64 x <? 0) || (maxAlloc <? s64 x * gsize g)) eqn:MK; [lia|].
        rewrite CE. unfold alloc, blen. rewrite repeat_length. destruct (withMemory mem); [|lia].
        specialize (MF eq_refl _ _ _ IV Hx). lia. }
      rewrite costs_cons. cbn [GoLang.exec].
      change (eval e (EMake g (EToInt (refExpr camel rv f)))) with
        (v <- eval e (EToInt (refExpr camel rv f)) ;;
         match v with
         | VInt z => if (z <? 0) || (maxAlloc <? z * gsize g) then Panic "makeslice: len out of range"
                     else Ok (VList (repeat (zero g) (Z.to_nat z)))
         | _ => stuck end).
      rewrite (EV _ _ M). cbn [bind].
      destruct ((s64 x <? 0) || (maxAlloc <? s64 x * gsize g)) eqn:MK.
      { cbn [lift used] in *. nia. }
      cbn [lift]. rewrite (p_store _ _ _ _ P _ w) by auto. cbn [lift].
      set (l := repeat (zero g) (Z.to_nat (s64 x))).
      assert (BL : blen l = s64 x) by (unfold l, blen; rewrite repeat_length; lia).
      assert (KB : 0 <= s64 x < two63) by (split; [lia|]; unfold s64; destruct (x mod two64 <? two63) eqn:E; unfold two64, two63 in *; lia).
      assert (HI : ~ In "idx" [rv]) by (apply LP, LT; cbn; auto).
      assert (LI : In "idx" locs) by (apply LT; cbn; auto).
      assert (LT2 : forall y, In y (localsT b) -> ~ In y ["idx"; rv] /\ In y locs).
      { intros y I. assert (In y locs) by (apply LT; cbn; auto). split; auto. intros [E|E]; [|apply (LP y); auto].
        subst y. destruct (checkBase_locals r cenv locs Hlocs _ _ CB I); discriminate. }
      assert (HB : forall i c1 v, eval (("idx", VInt i) :: assign "cur" (VBytes c1) (pset _ _ _ _ P e v))
                     (EToInt (refExpr camel rv f)) = Ok (VInt (s64 x))).
      { intros i c1 v. rewrite (PS _ _ _ _ M).
        assert (M1 : menv (("idx", VInt i) :: upd e (assign F v fs) c1) (assign F v fs) c1).
        { eapply menv_push; eauto; try discriminate. eapply menv_upd; eauto. }
        cbn [GoLang.eval]. fold (upd e (assign F v fs) c1).
        rewrite (ref_eval camel types cenv dat rv ty _ _ _ _ x M1); [reflexivity|].
        unfold refVal in *. destruct (String.eqb_spec (rscope f) ""); auto.
        now rewrite alookup_assign_other by auto. }
      pose proof (for_cost _ _ _ P NC RDA RCE PL SL b body (EToInt (refExpr camel rv f)) HI (s64 x) 0 (rateT most r K b) (20 + 2 * rateT most r K b) Hb CB OK LI LT2 KB
                    ltac:(cbn; auto) ltac:(cbn [esize]; lia) ltac:(lia) ltac:(lia) ltac:(lia) ltac:(lia)
                    ltac:(intros c2 v2 c3 B2 D2; pose proof (Hless _ _ _ _ EA B2 D2); nia) e HB
                    n 0 c c l w (proj1 M) G BL ltac:(lia) B) as S.
      replace (s64 x - 0) with (s64 x) in S by lia. specialize (S (stuck_bind _ _ NS)).
      assert (E0 : assign "cur" (VBytes c) (pset _ _ _ _ P e (VList l)) = pset _ _ _ _ P e (VList l)).
      { apply assign_same. rewrite (PS _ _ _ _ M). rewrite alookup_assign_other by (intros E; apply RCU; auto).
        apply (ek_cur _ _ _ _ (proj1 M)). }
      rewrite E0 in S. rewrite costs_cons, cost_for.
      assert (UE : used ('(vs, c1) <- decFor r dcall cenv d n b (s64 x) c ;; Ok (VList vs, c1)) c = used (decFor r dcall cenv d n b (s64 x) c) c).
      { destruct (decFor r dcall cenv d n b (s64 x) c) as [[vs c1]| | |]; reflexivity. }
      assert (U0 : 0 <= used (decFor r dcall cenv d n b (s64 x) c) c).
      { apply used_nonneg. intros v' c' X. eapply decFor_left; eauto. }
      rewrite UE. set (U := used (decFor r dcall cenv d n b (s64 x) c) c) in *.
      assert ((20 + 2 * rateT most r K b) * U + rateT most r K b + 21 + most <= (80 + 2 * rateT most r K b + most) * (U + 1)) by nia.
      destruct (exec _ _) as [e1 []]; rewrite ?costs_nil; lia.
    + (* leftover *)
      destruct ST as [CB GC]. apply bind_ok in H as (g & Hg & H). apply bind_ok in H as (body & Hb & H).
      pose proof (base_rate b CB) as BR.
      pose proof (constrained_cost _ (fun c0 => '(vs, c1) <- decWhile r dcall cenv d n b c0 ;; Ok (VList vs, c1)) _ _ (40 + 2 * rateT most r K b) e fs c
        ltac:(lia) H M ltac:(apply LT; cbn; auto) B IV) as X.
      match goal with |- _ <= _ * (used ?o c + 1) => set (U := used o c) in * end.
      cbn [decConstr] in X.
      match type of X with _ -> _ -> _ <= _ * (used ?o c + 1) + 40 => change (used o c) with U in X end.
      specialize (X ltac:(intros e1 c1 M1 I1 B1 N1; apply WH; auto; intros y I; apply LT; cbn; auto) NS).
      assert (0 <= U).
      { apply used_nonneg. intros v' c' Y. eapply (decType_left camel r dcall n cenv dat Hleft fs (TVar b (Some (LLeftover i)))); eauto. }
      lia.
    + (* remainder *)
      apply bind_ok in H as (g & Hg & H). apply bind_ok in H as (body & Hb & H). injection H as <-.
      pose proof (WH g body e c ST ltac:(intros y I; apply LT; auto) FR Hb M B NS) as S. pose proof (base_rate b ST) as BR.
      match goal with |- _ <= _ * (used ?o c + 1) => set (U := used o c) in * end.
      assert (0 <= U).
      { apply used_nonneg. intros v' c' Y. eapply (decType_left camel r dcall n cenv dat Hleft fs (TVar b None)); eauto. }
      etransitivity; [exact S|]. nia.
Qed.

(* ---------- members ---------- *)

Lemma conditional_some : forall v l c, conditional r v l = Ok c -> plainE v = true -> esize v <= 4 -> l <> [] ->
  plainE c = true /\ esize c <= 15 * blen l.
Proof.
  intros v [|g l] c H P V N; [contradiction|]. unfold conditional in H.
  apply bind_ok in H as (cs & H & Hc). injection Hc as <-.
  cbn [mapM] in H. apply bind_ok in H as (c & Hc & H). apply bind_ok in H as (cs' & Hcs & H). injection H as <-.
  destruct (clause_size _ _ _ _ Hc P) as [C1 C2]. cbn [joinOr].
  destruct (joinOr_size r v P l cs' c Hcs C1) as [A B]. split; auto. unfold blen in *. cbn [List.length].
  pose proof (esize_pos v). nia.
Qed.

Variable flds : list (string * type).
Hypothesis Hnd : NoDup (map (fun f => camel (fst f)) flds).
Hypothesis Htypes : forall nm t, In (nm, t) flds -> simType camel r cenv (camel nm) t.
Hypothesis Hfrugal : forall nm t, In (nm, t) flds -> frugal t.
Hypothesis Hnext : forall m fs c fs' c', incl (fieldsM m) flds -> inv fs c -> blen c < two63 ->
  decMember camel r dcall n cenv d m fs c = Ok (fs', c') -> inv fs' c'.
Hypothesis Hokn : forall nm t x, In (nm, t) flds -> In x (structsT t) -> okn x.

Notation shaped := (shaped camel r flds).
Notation decMember := (decMember camel r dcall n cenv d).
Notation decMembers := (decMembers camel r dcall n cenv d).
Notation parseMember := (parseMember camel r rv).
Notation rateM := (rateM most r K).

Lemma rateM_pos : forall m, incl (fieldsM m) flds -> 0 <= rateM m.
Proof using HK Hmost Htypes.
  clear - HK Hmost Htypes.
  induction m as [nm t|u tag len cs IH| | |] using member_ind'; intros I; cbn [CostSpec.rateM]; try lia.
  - assert (S : simType camel r cenv (camel nm) t) by (apply Htypes, I; cbn; auto).
    destruct t as [sz cst| | | |nm'|b i|b l]; cbn [simType] in S; try (pose proof (base_rate _ S); lia).
    + destruct S as [S G]. pose proof (base_rate _ S). cbn [rateT]. unfold goodCount in G. unfold countOf.
      destruct (int_value (Constant r) i); [nia|discriminate].
    + cbn [rateT]. destruct l as [[]|]; [destruct S as [S _]|destruct S as [S _]|]; pose proof (base_rate _ S); lia.
  - assert (0 <= sum (fun c => match c with UCase l ms => 15 * ranges l + sum rateM ms end) cs); [|lia].
    apply sum_nonneg. intros [l ms] J. rewrite Forall_forall in IH. specialize (IH _ J). cbn [ucase_members] in IH.
    assert (0 <= ranges l) by (destruct l; cbn; [apply blen_nonneg|lia]).
    assert (0 <= sum rateM ms); [|lia]. apply sum_nonneg. intros m Im. rewrite Forall_forall in IH. apply (IH _ Im).
    intros y Hy. apply I. cbn [fieldsM]. apply in_flat_map. exists (UCase l ms). split; auto. apply in_flat_map. eauto.
Qed.
Lemma sumM_pos : forall ms, incl (flat_map fieldsM ms) flds -> 0 <= sum rateM ms.
Proof using HK Hmost Htypes.
  clear - HK Hmost Htypes.
  intros ms I. apply sum_nonneg. intros m J. apply rateM_pos. intros y Hy. apply I. apply in_flat_map. eauto.
Qed.

Definition mcost (m : member) : Prop :=
  forall s e fs c, parseMember m = Ok s -> incl (fieldsM m) flds -> incl (localsM m) locs ->
  (forall l, In l (caseLists m) -> l <> []) -> menv e fs c -> shaped fs -> inv fs c ->
  blen c < two63 -> decMember m fs c <> stuck ->
  cost s e <= rateM m * (used (decMember m fs c) c + 1).

Lemma members_cost : forall ms, Forall mcost ms -> forall ss e fs c,
  mapM parseMember ms = Ok ss -> incl (flat_map fieldsM ms) flds -> incl (flat_map localsM ms) locs ->
  (forall l, In l (flat_map caseLists ms) -> l <> []) -> menv e fs c -> shaped fs -> inv fs c ->
  blen c < two63 -> decMembers ms fs c <> stuck ->
  costs ss e <= sum rateM ms * (used (decMembers ms fs c) c + 1).
Proof.
  induction ms as [|m ms IH]; intros F ss e fs c H IF IL IC M S IV B NS; cbn [mapM] in H; cbn [GenDecode.decMembers] in *.
  - injection H as <-. rewrite costs_nil. cbn. lia.
  - apply bind_ok in H as (s & Hs & H). apply bind_ok in H as (ss' & Hss & H). injection H as <-.
    assert (IF1 : incl (fieldsM m) flds) by (intros y Hy; apply IF; cbn; apply in_or_app; auto).
    assert (IF2 : incl (flat_map fieldsM ms) flds) by (intros y Hy; apply IF; cbn; apply in_or_app; auto).
    assert (IL1 : incl (localsM m) locs) by (intros y Hy; apply IL; cbn; apply in_or_app; auto).
    assert (IC1 : forall l, In l (caseLists m) -> l <> []) by (intros y Hy; apply IC; cbn; apply in_or_app; auto).
    pose proof (member_sim camel r types call dcall n cenv dat rv ty locs Hlocs Hrv Hcenv Hcall flds Hnd Htypes m s e fs c Hs IF1 IL1 IC1 M S) as S1.
    pose proof (Forall_inv F s e fs c Hs IF1 IL1 IC1 M S IV B (stuck_bind _ _ NS)) as C1.
    pose proof (rateM_pos m IF1). pose proof (sumM_pos ms IF2). pose proof (blen_nonneg c).
    rewrite costs_cons, sum_cons. destruct (exec s e) as [e1 res].
    destruct (decMember m fs c) as [[fs1 c1]|er|pm|] eqn:D; cbn [sim bind used] in S1, C1, NS |- *.
    + unfold good in S1. cbn [fst snd] in S1. injection S1 as -> ->.
      assert (M1 : menv (upd e fs1 c1) fs1 c1) by (eapply menv_upd; eauto).
      assert (SH : shaped fs1) by (eapply (decMember_shape camel r types call dcall n cenv dat rv locs Hlocs Hcenv Hcall flds Hnd Htypes); eauto).
      assert (L1 : blen c1 <= blen c) by (eapply decMember_left; eauto).
      pose proof (IH (Forall_inv_tail F) ss' _ _ _ Hss IF2
        ltac:(intros y Hy; apply IL; cbn; apply in_or_app; auto)
        ltac:(intros y Hy; apply IC; cbn; apply in_or_app; auto) M1 SH (Hnext _ _ _ _ _ IF1 IV B D) ltac:(lia) NS) as C2.
      assert (U0 : 0 <= used (decMembers ms fs1 c1) c1).
      { apply used_nonneg. intros v' c' X. eapply decMembers_left; eauto. lia. }
      assert (UE : used (decMembers ms fs1 c1) c1 + (blen c - blen c1) <= used (decMembers ms fs1 c1) c).
      { destruct (decMembers ms fs1 c1) as [[v' c']| | |]; cbn [used]; lia. }
      set (U := used (decMembers ms fs1 c1) c) in *. set (U2 := used (decMembers ms fs1 c1) c1) in *.
      assert (rateM m * (blen c - blen c1 + 1) <= rateM m * (U + 1)) by nia.
      assert (sum rateM ms * (U2 + 1) <= sum rateM ms * (U + 1)) by nia. lia.
    + destruct S1 as (e' & E). injection E as -> ->. nia.
    + destruct S1 as [->|(e' & E)]; [exfalso; apply NS; reflexivity|]. injection E as -> ->. nia.
    + destruct S1 as (e' & E). injection E as -> ->. nia.
Qed.

Definition sumCases (cs : list ucase) : Z := sum (fun c => match c with UCase l ms => 15 * ranges l + sum rateM ms end) cs.

Definition lists (c : ucase) : Z := match c with UCase l ms => 15 * ranges l end.
Definition bodies (c : ucase) : Z := match c with UCase l ms => sum rateM ms end.

Lemma switch_cost : forall tag cs, Forall (fun c => Forall mcost (ucase_members c)) cs -> forall cases e fs c,
  parseCases camel r rv tag cs = Ok cases ->
  incl (flat_map (fun c => match c with UCase _ ms => flat_map fieldsM ms end) cs) flds ->
  incl (flat_map (fun c => match c with UCase _ ms => flat_map localsM ms end) cs) locs ->
  (forall l, In l (caseLists (MUnion "" tag None cs)) -> l <> []) ->
  menv e fs c -> shaped fs -> inv fs c -> blen c < two63 ->
  (x <- refVal camel fs cenv tag ;; decPick camel r dcall n cenv dat cs x cs fs c) <> stuck ->
  costs [SSwitch cases] e <=
    (1 + sumCases cs) * (used (x <- refVal camel fs cenv tag ;; decPick camel r dcall n cenv dat cs x cs fs c) c + 1).
Proof.
  intros tag cs F cases e fs c H IF IL IC M S IV B NS. pose proof (blen_nonneg c) as BC.
  destruct (ref_cases camel cenv fs tag) as [[x Hx]|X]; [|rewrite X in NS; exfalso; apply NS; reflexivity].
  rewrite Hx in *. cbn [bind] in *.
  rewrite costs_cons, cost_switch.
  assert (SP : sumCases cs = sum lists cs + sum bodies cs).
  { unfold sumCases. rewrite <- sum_plus. clear. induction cs as [|[l ms] cs IH]; auto. rewrite !sum_cons, IH. reflexivity. }
  assert (LN : forall u, 0 <= lists u) by (intros [[l|] ms]; cbn [lists ranges]; [pose proof (blen_nonneg l)|]; lia).
  assert (IFm : forall k ms, In (UCase k ms) cs -> incl (flat_map fieldsM ms) flds).
  { intros k ms I y Hy. apply IF. apply in_flat_map. exists (UCase k ms). auto. }
  assert (BN : forall u, In u cs -> 0 <= bodies u) by (intros [l ms] I; apply sumM_pos; eapply IFm; eauto).
  assert (BS : 0 <= sum bodies cs) by (apply sum_nonneg; auto).
  assert (MS : forall k ms b, In (UCase k ms) cs -> mapM parseMember ms = Ok b -> decMembers ms fs c <> stuck ->
    costs b e <= sum bodies cs * (used (decMembers ms fs c) c + 1)).
  { intros k ms b I Hb N. rewrite Forall_forall in F.
    assert (Y : costs b e <= sum rateM ms * (used (decMembers ms fs c) c + 1)).
    { apply (members_cost ms (F _ I)); auto.
      - eapply IFm; eauto.
      - intros y Hy. apply IL. apply in_flat_map. exists (UCase k ms). auto.
      - intros l Hl. apply IC. cbn [caseLists]. apply in_flat_map. exists (UCase k ms). split; auto. apply in_or_app. auto. }
    pose proof (sum_in bodies cs (UCase k ms) BN I) as SI. cbn [bodies] in SI.
    assert (0 <= used (decMembers ms fs c) c).
    { apply used_nonneg. intros v' c' X. eapply decMembers_left; eauto. }
    nia. }
  assert (DF : forall cs' cases', incl cs' cs -> parseCases camel r rv tag cs' = Ok cases' ->
    decDflt camel r dcall n cenv dat cs' fs c <> stuck ->
    costDefault mem types call ccost n e cases' <= sum bodies cs * (used (decDflt camel r dcall n cenv dat cs' fs c) c + 1)).
  { induction cs' as [|[[l|] ms] cs' IH]; intros cases' I Hc N; cbn [parseCases] in Hc.
    - injection Hc as <-. cbn [costDefault decDflt used]. nia.
    - apply bind_ok in Hc as (ce & _ & Hc). apply bind_ok in Hc as (b & Hb & Hc). apply bind_ok in Hc as (rest & Hr & Hc).
      injection Hc as <-. cbn [costDefault decDflt] in *. apply IH; auto. intros y Hy. apply I. cbn; auto.
    - apply bind_ok in Hc as (b & Hb & Hc). apply bind_ok in Hc as (rest & Hr & Hc).
      injection Hc as <-. cbn [costDefault decDflt] in *. apply (MS None); auto. apply I. cbn; auto. }
  assert (PK : forall cs' cases', incl cs' cs -> parseCases camel r rv tag cs' = Ok cases' ->
    decPick camel r dcall n cenv dat cs x cs' fs c <> stuck ->
    costPick mem types call ccost n e cases cases' <= sum lists cs' + sum bodies cs * (used (decPick camel r dcall n cenv dat cs x cs' fs c) c + 1)).
  { induction cs' as [|[[l|] ms] cs' IH]; intros cases' I Hc N; cbn [parseCases] in Hc.
    - injection Hc as <-. cbn [costPick decPick] in *. cbn [sum fold_right]. rewrite Z.add_0_l. apply DF; auto. intros y Hy; auto.
    - apply bind_ok in Hc as (ce & Hce & Hc). apply bind_ok in Hc as (b & Hb & Hc). apply bind_ok in Hc as (rest & Hr & Hc).
      injection Hc as <-. cbn [costPick decPick] in *. rewrite sum_cons. cbn [lists ranges].
      assert (LNE : l <> []).
      { apply IC. cbn [caseLists]. apply in_flat_map. exists (UCase (Some l) ms).
        split; [apply I; cbn; auto|]. cbn. auto. }
      destruct (refExpr_size tag) as [R1 R2].
      destruct (conditional_some _ _ _ Hce R1 ltac:(lia) LNE) as [P1 P2]. rewrite (plain_work mem types e ce P1).
      rewrite (conditional_eval types _ _ _ x _ _ Hce LNE); [|eapply ref_eval; eauto].
      assert (0 <= sum lists cs') by (apply sum_nonneg; auto).
      destruct (inList r x l).
      + pose proof (MS (Some l) ms b (I _ (or_introl eq_refl)) Hb N). lia.
      + specialize (IH rest (fun y Hy => I y (or_intror Hy)) Hr N). lia.
    - apply bind_ok in Hc as (b & Hb & Hc). apply bind_ok in Hc as (rest & Hr & Hc).
      injection Hc as <-. cbn [costPick decPick] in *. rewrite sum_cons. cbn [lists ranges].
      specialize (IH rest (fun y Hy => I y (or_intror Hy)) Hr N). lia. }
  specialize (PK cs cases (fun y Hy => Hy) H NS).
  set (o := decPick camel r dcall n cenv dat cs x cs fs c) in *.
  assert (0 <= used o c).
  { apply used_nonneg. intros v' c' X. unfold o in X. destruct (decPick_in camel r dcall n cenv dat cs x cs fs c) as [(k & ms & _ & E)|E].
    - rewrite E in X. eapply decMembers_left; eauto.
    - rewrite E in X. injection X as _ <-. lia. }
  assert (0 <= sum lists cs) by (apply sum_nonneg; auto).
  rewrite SP. destruct (exec _ e) as [e1 []]; rewrite ?costs_nil; nia.
Qed.

Lemma member_cost : forall m, mcost m.
Proof.
  induction m as [nm t|u tag len cs IH| | |] using member_ind'; intros s e fs c H IF IL IC M S IV B NS; pose proof (blen_nonneg c) as BC.
  - cbn [GenModel.parseMember] in H. apply bind_ok in H as (b & Hb & H). injection H as <-.
    rewrite cost_block. cbn [GenDecode.decMember CostSpec.rateM] in *.
    assert (I : In (nm, t) flds) by (apply IF; cbn; auto).
    destruct (S _ _ I) as (w & Hw & SW).
    pose proof (type_cost (camel nm) t b e fs c w Hb (Htypes _ _ I) IL (Hfrugal _ _ I) (fun x Hx => Hokn _ _ _ I Hx) M Hw SW IV B (stuck_bind _ _ NS)) as S1.
    assert (0 <= used (decType camel r dcall n cenv d fs t c) c).
    { apply used_nonneg. intros v' c' X. eapply decType_left; eauto. }
    match goal with |- _ <= _ * (?u + 1) =>
      assert (UE : u = used (decType camel r dcall n cenv d fs t c) c)
        by (destruct (decType camel r dcall n cenv d fs t c) as [[]| | |]; reflexivity);
      set (V := u) in * end.
    etransitivity; [apply Z.add_le_mono_l, S1|]. lia.
  - assert (U0 : 0 <= used (decMember (MUnion u tag len cs) fs c) c).
    { apply used_nonneg. intros v' c' X. eapply decMember_left; eauto. }
    assert (W0 : 0 <= sumCases cs) by (pose proof (rateM_pos (MUnion u tag len cs) IF) as X; cbn [CostSpec.rateM] in X; fold (sumCases cs) in X;
      unfold sumCases; apply sum_nonneg; intros [l ms] J; assert (0 <= ranges l) by (destruct l; cbn; [apply blen_nonneg|lia]);
      assert (0 <= sum rateM ms) by (apply sumM_pos; intros y Hy; apply IF; cbn [fieldsM]; apply in_flat_map; exists (UCase l ms); auto); lia).
    rewrite parseMember_union in H. apply bind_ok in H as (cases & Hc & H).
    rewrite decMember_union in *. cbn zeta in *. cbn [fieldsM localsM] in IF, IL. cbn [CostSpec.rateM]. fold (sumCases cs).
    assert (SW : forall e1 c1, menv e1 fs c1 -> inv fs c1 -> blen c1 < two63 ->
      (x <- refVal camel fs cenv tag ;; decPick camel r dcall n cenv dat cs x cs fs c1) <> stuck ->
      costs [SSwitch cases] e1 <= (1 + sumCases cs) * (used (x <- refVal camel fs cenv tag ;; decPick camel r dcall n cenv dat cs x cs fs c1) c1 + 1)).
    { intros e1 c1 M1 I1 B1 N1. apply (switch_cost tag cs IH); auto. intros y Hy; apply IL; apply in_or_app; auto. }
    destruct len as [l|].
    + apply bind_ok in H as (b & Hb & H). injection H as <-. rewrite cost_block.
      pose proof (constrained_cost [SSwitch cases] (fun c => x <- refVal camel fs cenv tag ;; decPick camel r dcall n cenv dat cs x cs fs c)
        l b (1 + sumCases cs) e fs c ltac:(lia) Hb M ltac:(apply IL; cbn; auto) B IV SW NS) as X.
      nia.
    + injection H as <-. rewrite cost_block. specialize (SW e c M IV B NS). nia.
  - injection H as <-. rewrite cost_block. cbn [GenDecode.decMember CostSpec.rateM] in *.
    assert (X : costs [assertEnd] e <= 9).
    { rewrite costs_cons. assert (cost assertEnd e <= 8) by (etransitivity; [apply check_cost; reflexivity|cbn; lia]).
      destruct (exec _ e) as [? []]; rewrite ?costs_nil; lia. }
    destruct (0 <? blen c); cbn [used]; lia.
  - injection H as <-. rewrite cost_block, ret_cost. cbn [GenDecode.decMember CostSpec.rateM used]. lia.
  - injection H as <-. rewrite cost_block. cbn [GenDecode.decMember CostSpec.rateM used] in *. change (blen (@nil Z)) with 0.
    rewrite costs_cons, assign_cost by reflexivity. cbn [lexpr esize]. destruct (exec _ e) as [? []]; rewrite ?costs_nil; lia.
Qed.

(** The statements of a whole struct. *)
Theorem body_cost : forall ms ss e fs c, mapM parseMember ms = Ok ss ->
  incl (flat_map fieldsM ms) flds -> incl (flat_map localsM ms) locs ->
  (forall l, In l (flat_map caseLists ms) -> l <> []) -> menv e fs c -> shaped fs -> inv fs c ->
  blen c < two63 -> decMembers ms fs c <> stuck ->
  costs ss e <= sum rateM ms * (used (decMembers ms fs c) c + 1).
Proof.
  intros. apply members_cost; auto. apply Forall_forall. intros m _. apply member_cost.
Qed.
End Body.
