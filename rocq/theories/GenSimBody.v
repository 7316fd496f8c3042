(** One Parse body: the generated statements do what the decoder does. *)
From Coq Require Import ZArith String List Bool Lia.
From Coq Require Import ZifyBool ZifyNat.
From Verif Require Import Base Ast IntervalsModel InspectModel InspectSpec InspectProofs GoLang GenModel GenDecode GenCheck GenSim.
Import ListNotations.
Open Scope string_scope.
Open Scope list_scope.
Open Scope Z_scope.
Ltac Zify.zify_post_hook ::= Z.div_mod_to_equations.

(* ---------- integers and conditions ---------- *)

Lemma bind_ok : forall {A B} (x : outcome A) (f : A -> outcome B) b,
  bind x f = Ok b -> exists a, x = Ok a /\ f a = Ok b.
Proof. intros A B [a|e|m|] f b H; cbn in H; try discriminate. eauto. Qed.

Lemma integerOf_value : forall r i z, integerOf r i = Ok z <-> int_value (Constant r) i = Some z.
Proof.
  intros. unfold integerOf. rewrite Integer_value.
  destruct (int_value (Constant r) i); split; congruence.
Qed.

Lemma clause_eval : forall types r e v g x c, clauseOf r v g = Ok c ->
  eval types e v = Ok (VInt x) -> eval types e c = Ok (VBool (inRange r x g)).
Proof.
  intros types r e v g x c H E. unfold clauseOf in H. unfold inRange, range_bounds.
  destruct (rhigh g) as [h|].
  - apply bind_ok in H as (a & Ha & H). apply bind_ok in H as (b & Hb & H). injection H as <-.
    apply integerOf_value in Ha, Hb. rewrite Ha, Hb.
    cbn [eval]. rewrite E. cbn [bind evalBin]. destruct (a <=? x); reflexivity.
  - apply bind_ok in H as (a & Ha & H). injection H as <-.
    apply integerOf_value in Ha. rewrite Ha. cbn [eval]. rewrite E. cbn [bind evalBin].
    do 2 f_equal. lia.
Qed.

Lemma joinOr_eval : forall types r e v x l cs acc b,
  mapM (clauseOf r v) l = Ok cs -> eval types e v = Ok (VInt x) ->
  eval types e acc = Ok (VBool b) ->
  eval types e (fold_left (fun a c => EBin BOr a c) cs acc) = Ok (VBool (b || inList r x l)).
Proof.
  intros types r e v x. induction l as [|g l IH]; intros cs acc b H E A.
  - injection H as <-. cbn. now rewrite A, orb_false_r.
  - cbn [mapM] in H. apply bind_ok in H as (c & Hc & H). apply bind_ok in H as (cs' & Hcs & H).
    injection H as <-. cbn [fold_left inList existsb].
    rewrite (IH cs' _ (b || inRange r x g) Hcs E), orb_assoc; [reflexivity|].
    cbn [eval]. rewrite A. cbn [bind]. destruct b; [reflexivity|].
    now rewrite (clause_eval _ _ _ _ _ _ _ Hc E).
Qed.

Lemma conditional_eval : forall types r e v x l c, conditional r v l = Ok c -> l <> [] ->
  eval types e v = Ok (VInt x) -> eval types e c = Ok (VBool (inList r x l)).
Proof.
  intros types r e v x [|g l] c H N E; [congruence|]. unfold conditional in H.
  apply bind_ok in H as (cs & H & Hc). injection Hc as <-.
  cbn [mapM] in H. apply bind_ok in H as (c & Hc & H). apply bind_ok in H as (cs' & Hcs & H).
  injection H as <-. cbn [joinOr inList existsb].
  apply (joinOr_eval _ _ _ v); auto. eapply clause_eval; eauto.
Qed.

Lemma be_one : forall (c : bytes) x, nthZ c 0 = Some x -> be (firstn 1 c) = x.
Proof. intros [|a c] x H; cbn in *; [discriminate|]. injection H as ->. unfold be. cbn. reflexivity. Qed.

Lemma firstn_updN : forall {A} (l : list A) i v, (i < List.length l)%nat ->
  firstn (S i) (updN l i v) = firstn i l ++ [v].
Proof.
  induction l as [|a l IH]; intros [|i] v H; cbn [List.length updN] in *; try lia; [reflexivity|].
  change (firstn (S (S i)) (a :: updN l i v)) with (a :: firstn (S i) (updN l i v)).
  rewrite IH by lia. reflexivity.
Qed.

Lemma p_app_get : forall types L pv root (P : place types L pv root) pre e,
  (forall y, In y (map fst pre) -> ~ In y pv) -> pget _ _ _ _ P (pre ++ e) = pget _ _ _ _ P e.
Proof.
  induction pre as [|[y w] pre IH]; intros e H; cbn [app]; auto.
  rewrite p_push_get by (apply H; cbn; auto). apply IH. intros z Hz. apply H. cbn; auto.
Qed.
Lemma p_app_set : forall types L pv root (P : place types L pv root) pre e v,
  (forall y, In y (map fst pre) -> ~ In y pv) -> pset _ _ _ _ P (pre ++ e) v = pre ++ pset _ _ _ _ P e v.
Proof.
  induction pre as [|[y w] pre IH]; intros e v H; cbn [app]; auto.
  rewrite p_push_set by (apply H; cbn; auto). f_equal. apply IH. intros z Hz. apply H. cbn; auto.
Qed.

Lemma indexByte_bound : forall c z, indexByte c z 0 < blen c \/ indexByte c z 0 = -1.
Proof.
  intros c z. assert (X : forall c k, indexByte c z k < k + blen c \/ indexByte c z k = -1).
  { clear. induction c as [|b c IH]; intros j; unfold blen in *; cbn [indexByte List.length]; [lia|].
    destruct (b =? z); [lia|]. specialize (IH (j + 1)). lia. }
  specialize (X c 0). lia.
Qed.

Lemma skipn_nil_iff : forall {A} (l : list A), (blen l <= 0) <-> l = [].
Proof. intros A [|a l]; cbn; split; auto; try congruence; unfold blen; cbn [List.length]; lia. Qed.

Lemma decFor_len : forall r dcall cenv d m t k c vs c', decFor r dcall cenv d m t k c = Ok (vs, c') ->
  blen vs = Z.max k 0.
Proof.
  induction m as [|m IH]; intros t k c vs c' H; cbn [decFor] in H; destruct (k <=? 0) eqn:K; try discriminate.
  - injection H as <- <-. cbn. lia.
  - injection H as <- <-. cbn. lia.
  - apply bind_ok in H as ([v c1] & H1 & H). apply bind_ok in H as ([vs' c2] & H2 & H).
    injection H as <- <-. apply IH in H2. unfold blen in *. cbn [List.length]. lia.
Qed.

(** Fields of a member, with those of union cases. *)
Fixpoint fieldsM (m : member) : list (string * type) :=
  match m with
  | MField n t => [(n, t)]
  | MUnion _ _ _ cs => flat_map (fun c => match c with UCase _ ms => flat_map fieldsM ms end) cs
  | MEOS | MFail | MIgnore => []
  end.

Section Body.
Variable camel : string -> string.
Variable r : resolver.
Variable types : amap (list (string * gtype)).
Variable call : callfun.
Variable dcall : string -> amap value -> bytes -> outcome (value * bytes).
Variable n : nat.
Variable cenv : amap value.
Variable dat : bytes.
Variable rv ty : string.
Variable locs : list string.
Hypothesis Hlocs : In "cur" locs /\ In "data" locs /\ In "err" locs.
Hypothesis Hrv : ~ In rv locs.
Hypothesis Hcenv : forall x v, alookup x cenv = Some v -> ~ In x locs /\ x <> rv.

Notation eval := (eval types).
Notation store := (store types).
Notation exec := (exec types call n).
Notation execs := (execs types call n).
Notation place := (place types).
Notation d := (blen dat).

(** A nested Parse does what [dcall] does. *)
Definition ressim (x : value * sres) (o : outcome (value * bytes)) : Prop :=
  match o with
  | Ok (v, c') => x = (v, SRet (VBytes c') VNil)
  | Err m => exists v, x = (v, SRet VNil (VErr m))
  | Panic m => m = "ill-typed" \/ exists v, x = (v, SPanic m)
  | OutOfFuel => exists v, x = (v, SFuel)
  end.
Hypothesis Hcall : forall nm s c, Struct r nm = Some s -> Extern s = false ->
  dcall nm cenv c = stuck \/
  exists fields args, ctxArgs cenv (scontexts s) = Ok args /\ alookup (camel nm) types = Some fields /\
    ressim (call (VStruct (camel nm) (zeros fields)) (VBytes c) args) (dcall nm cenv c).

(** What a run of statements must be, given what the decoder does. *)
Definition sim {A} (x : env * sres) (o : outcome A) (good : A -> env * sres -> Prop) : Prop :=
  match o with
  | Ok a => good a x
  | Err m => exists e', x = (e', SRet VNil (VErr m))
  | Panic m => m = "ill-typed" \/ exists e', x = (e', SPanic m)
  | OutOfFuel => exists e', x = (e', SFuel)
  end.

(** The variables the code relies on. *)
Record envok (e : env) (c : bytes) : Prop := mkEnvok {
  ek_cur : alookup "cur" e = Some (VBytes c);
  ek_data : alookup "data" e = Some (VBytes dat);
  ek_ctx : forall x v, alookup x cenv = Some v -> alookup x e = Some v }.

Lemma envok_push : forall e c y v, envok e c -> In y locs -> y <> "cur" -> y <> "data" ->
  envok ((y, v) :: e) c.
Proof.
  intros e c y v [A B C] I N1 N2. split; cbn [alookup].
  - destruct (String.eqb_spec "cur" y); [congruence|auto].
  - destruct (String.eqb_spec "data" y); [congruence|auto].
  - intros x w H. destruct (String.eqb_spec x y) as [->|]; auto.
    apply Hcenv in H. tauto.
Qed.
Lemma envok_cur : forall e c c', envok e c -> envok (assign "cur" (VBytes c') e) c'.
Proof.
  intros e c c' [A B C]. split.
  - eapply alookup_assign_same; eauto.
  - rewrite alookup_assign_other by discriminate. auto.
  - intros x v H. rewrite alookup_assign_other; auto. apply Hcenv in H. intros ->. tauto.
Qed.
Lemma envok_assign : forall e c y v, envok e c -> y <> "cur" -> y <> "data" ->
  (forall w, alookup y cenv <> Some w) -> envok (assign y v e) c.
Proof.
  intros e c y v [A B C] N1 N2 N3. split.
  - rewrite alookup_assign_other by auto. auto.
  - rewrite alookup_assign_other by auto. auto.
  - intros x w H. rewrite alookup_assign_other; auto. intros ->. eapply N3; eauto.
Qed.
Lemma envok_place : forall L pv root (P : place L pv root) e c v, envok e c -> root <> "cur" -> root <> "data" ->
  (forall w, alookup root cenv <> Some w) -> envok (pset _ _ _ _ P e v) c.
Proof.
  intros L pv root P e c v [A B C] N1 N2 N3. split.
  - rewrite p_other by auto. auto.
  - rewrite p_other by auto. auto.
  - intros x w H. rewrite p_other; auto. intros ->. eapply N3; eauto.
Qed.

Lemma eval_cur : forall e c, envok e c -> eval e (EVar "cur") = Ok (VBytes c).
Proof. intros e c [A _ _]. cbn. now rewrite A. Qed.
Lemma eval_len : forall e c, envok e c -> eval e (ELen cur) = Ok (VInt (blen c)).
Proof. intros e c H. cbn [GoLang.eval]. unfold cur. rewrite (eval_cur _ _ H). reflexivity. Qed.

(** The length check. *)
Lemma check_pass : forall e c x k, envok e c -> eval e x = Ok (VInt k) -> k <= blen c ->
  exec (lengthCheck x) e = (e, SNext).
Proof.
  intros e c x k H E L. unfold lengthCheck. rewrite exec_if. cbn [GoLang.eval].
  unfold cur. rewrite (eval_cur _ _ H). cbn [bind]. rewrite E. cbn [bind evalBin lift].
  now replace (blen c <? k) with false by lia.
Qed.
Lemma check_fail : forall e c x k, envok e c -> eval e x = Ok (VInt k) -> blen c < k ->
  exec (lengthCheck x) e = (e, SRet VNil (VErr "data too short")).
Proof.
  intros e c x k H E L. unfold lengthCheck. rewrite exec_if. cbn [GoLang.eval].
  unfold cur. rewrite (eval_cur _ _ H). cbn [bind]. rewrite E. cbn [bind evalBin lift].
  replace (blen c <? k) with true by lia. unfold block. cbn. f_equal. apply leave_same. reflexivity.
Qed.
Lemma end_pass : forall e c, envok e c -> blen c <= 0 -> exec assertEnd e = (e, SNext).
Proof.
  intros e c H L. unfold assertEnd. rewrite exec_if. cbn [GoLang.eval].
  unfold cur. rewrite (eval_cur _ _ H). cbn [bind evalBin lift].
  now replace (0 <? blen c) with false by lia.
Qed.
Lemma end_fail : forall e c, envok e c -> 0 < blen c ->
  exec assertEnd e = (e, SRet VNil (VErr "trailing data disallowed")).
Proof.
  intros e c H L. unfold assertEnd. rewrite exec_if. cbn [GoLang.eval].
  unfold cur. rewrite (eval_cur _ _ H). cbn [bind evalBin lift].
  replace (0 <? blen c) with true by lia. unfold block. cbn. f_equal. apply leave_same. reflexivity.
Qed.

Lemma exec_assign : forall e L pv root (P : place L pv root) a v w,
  eval e a = Ok v -> pget _ _ _ _ P e = Some w -> exec (SAssign L a) e = (pset _ _ _ _ P e v, SNext).
Proof. intros. cbn [GoLang.exec]. rewrite H. cbn [lift]. rewrite (p_store _ _ _ _ P _ _ _ H0). reflexivity. Qed.
Lemma exec_assign_cur : forall e c a v, envok e c ->
  eval e a = Ok v -> exec (SAssign (LVar "cur") a) e = (assign "cur" v e, SNext).
Proof. intros e c a v [A _ _] H. cbn [GoLang.exec]. rewrite H. cbn [lift GoLang.store]. rewrite A. reflexivity. Qed.

(* ---------- types that are not arrays ---------- *)

Lemma int_sim : forall sz cst L pv root (P : place L pv root) ss e c w,
  parseIntType r L sz cst = Ok ss ->
  goodSize sz = true -> (match cst with Some [] => false | _ => true end) = true ->
  envok e c -> pget _ _ _ _ P e = Some w -> ~ In "cur" pv -> root <> "data" ->
  (forall w, alookup root cenv <> Some w) ->
  sim (execs ss e) (decInt r sz cst c)
    (fun a y => y = (assign "cur" (VBytes (snd a)) (pset _ _ _ _ P e (fst a)), SNext)).
Proof.
  intros sz cst L pv root P ss e c w H SZ NE K G NC RD RC. unfold parseIntType in H.
  apply bind_ok in H as (check & Hc & H). injection H as <-.
  assert (RCU : root <> "cur") by (intros E; apply NC; rewrite <- E; apply (p_root _ _ _ _ P)).
  assert (S8 : 1 <= sz / 8 <= 8) by (unfold goodSize in SZ; lia).
  unfold decInt. destruct (blen c <? sz / 8) eqn:LC.
  { cbn [sim app]. rewrite execs_cons, (check_fail _ c _ (sz / 8)); auto; [|lia]. eauto. }
  cbn [app]. rewrite execs_cons, (check_pass _ c _ (sz / 8)); auto; [|lia].
  set (x := be (firstn (Z.to_nat (sz / 8)) c)).
  (* the value *)
  match goal with |- context [execs (?s0 :: ?rest) e] =>
    assert (AS : exec s0 e = (pset _ _ _ _ P e (VInt x), SNext)) end.
  { destruct (sz / 8 =? 1) eqn:N1.
    - apply exec_assign with (w := w); auto. cbn [GoLang.eval]. unfold cur. rewrite (eval_cur _ _ K). cbn [bind].
      destruct (nthZ_some c 0) as [b Hb]; [lia|]. rewrite Hb. do 2 f_equal.
      unfold x. replace (Z.to_nat (sz / 8)) with 1%nat by lia. symmetry. now apply be_one.
    - apply exec_assign with (w := w); auto. cbn [GoLang.eval]. unfold cur. rewrite (eval_cur _ _ K). cbn [bind].
      replace ((sz =? 16) || (sz =? 32) || (sz =? 64)) with true by (unfold goodSize in SZ; lia).
      rewrite LC. reflexivity. }
  rewrite execs_cons, AS. clear AS.
  assert (K1 : envok (pset _ _ _ _ P e (VInt x)) c) by (apply envok_place; auto).
  assert (FIN : execs [SAssign (LVar "cur") (EFrom cur (EInt (sz / 8)))] (pset _ _ _ _ P e (VInt x)) =
                (assign "cur" (VBytes (skipn (Z.to_nat (sz / 8)) c)) (pset _ _ _ _ P e (VInt x)), SNext)).
  { rewrite execs_cons, (exec_assign_cur _ c _ (VBytes (skipn (Z.to_nat (sz / 8)) c))); auto.
    cbn [GoLang.eval]. unfold cur. rewrite (eval_cur _ _ K1). cbn [bind].
    now replace ((sz / 8 <? 0) || (blen c <? sz / 8)) with false by lia. }
  destruct cst as [l|].
  - apply bind_ok in Hc as (ce & Hc & Hc'). injection Hc' as <-. cbn [app].
    rewrite execs_cons, exec_if. cbn [GoLang.eval].
    rewrite (conditional_eval _ _ _ _ x _ _ Hc).
    + cbn [bind lift]. destruct (inList r x l); cbn [negb].
      * cbn [sim fst snd]. exact FIN.
      * cbn [sim]. unfold block. cbn. eauto.
    + intros ->. discriminate.
    + apply (p_eval _ _ _ _ P). eapply p_get_set; eauto.
  - injection Hc as <-. cbn [app]. cbn [sim fst snd]. exact FIN.
Qed.

Lemma mapM_ctx : forall e c xs vs, envok e c -> ctxArgs cenv xs = Ok vs -> mapM (eval e) (map EVar xs) = Ok vs.
Proof.
  intros e c xs vs K. revert vs. induction xs as [|x xs IH]; intros vs H; cbn in *; auto.
  apply bind_ok in H as (v & Hv & H). apply bind_ok in H as (vs' & Hvs & H). injection H as <-.
  destruct (alookup x cenv) as [u|] eqn:E; [|discriminate]. injection Hv as ->.
  rewrite (ek_ctx _ _ K _ _ E). cbn [bind]. now rewrite (IH _ Hvs).
Qed.

Lemma base_sim : forall t L pv root (P : place L pv root) ss e c w,
  parseType camel r rv L t = Ok ss ->
  checkBase r (map fst cenv) t = true ->
  envok e c -> pget _ _ _ _ P e = Some w ->
  ~ In "cur" pv -> root <> "data" -> (forall w, alookup root cenv <> Some w) ->
  (forall y, In y (localsT t) -> ~ In y pv /\ In y locs) ->
  sim (execs ss e) (decBase r dcall cenv d t c)
    (fun a y => exists pre, incl (map fst pre) (localsT t) /\
       y = (pre ++ assign "cur" (VBytes (snd a)) (pset _ _ _ _ P e (fst a)), SNext)).
Proof.
  intros t L pv root P ss e c w H CB K G NC RD RC LT.
  assert (RCU : root <> "cur") by (intros E; apply NC; rewrite <- E; apply (p_root _ _ _ _ P)).
  destruct t as [sz cst| | | |nm|b s|b cst]; cbn [checkBase] in CB; try discriminate; cbn [parseType] in H; cbn [decBase].
  - unfold checkInt in CB. apply andb_true_iff in CB as [C1 C2].
    assert (C3 : (match cst with Some [] => false | _ => true end) = true).
    { destruct cst as [[|]|]; auto. }
    pose proof (int_sim _ _ _ _ _ P _ _ _ _ H C1 C3 K G NC RD RC) as S.
    destruct (decInt r sz cst c) as [[v c']| | |]; cbn [sim fst snd] in *; auto.
    exists []. split; [intros ? []|exact S].
  - pose proof (int_sim _ _ _ _ _ P _ _ _ _ H eq_refl eq_refl K G NC RD RC) as S.
    destruct (decInt r 8 None c) as [[v c']| | |]; cbn [sim fst snd] in *; auto.
    exists []. split; [intros ? []|exact S].
  - injection H as <-. cbn [sim fst snd]. exists []. split; [intros ? []|]. cbn [app].
    rewrite execs_cons, (exec_assign _ _ _ _ P _ (VInt (s64 (d - blen c))) w); auto.
    + cbn. f_equal. symmetry. apply assign_same. rewrite p_other by auto. apply (ek_cur _ _ K).
    + cbn [GoLang.eval]. unfold cur. rewrite (eval_cur _ _ K), (ek_data _ _ K). reflexivity.
  - injection H as <-. unfold decNul.
    set (i := indexByte c 0 0).
    assert (LI := LT "i" (or_introl eq_refl)).
    assert (K1 : envok (("i", VInt i) :: e) c) by (apply envok_push; auto; try discriminate; tauto).
    rewrite execs_cons. cbn [GoLang.exec GoLang.eval]. unfold cur. rewrite (eval_cur _ _ K). cbn [bind lift].
    fold i. fold cur. rewrite execs_cons, exec_if. cbn [GoLang.eval bind evalBin lift alookup].
    change (String.eqb "i" "i") with true. cbn [bind evalBin lift].
    destruct (i <? 0) eqn:I0.
    { cbn [sim]. unfold block. cbn. eauto. }
    assert (IB : i < blen c) by (unfold i in *; pose proof (indexByte_bound c 0); lia).
    rewrite execs_cons. cbn [GoLang.exec].
    assert (E1 : eval (("i", VInt i) :: e) (EStringOf (ETo cur (EVar "i"))) = Ok (VStr (firstn (Z.to_nat i) c))).
    { cbn [GoLang.eval]. unfold cur. rewrite (eval_cur _ _ K1). cbn [bind alookup].
      change (String.eqb "i" "i") with true. cbn [bind].
      now replace ((i <? 0) || (blen c <? i)) with false by lia. }
    assert (E2 : eval (("i", VInt i) :: e) (EFrom cur (EBin BAdd (EVar "i") (EInt 1))) =
                 if (s64 (i + 1) <? 0) || (blen c <? s64 (i + 1)) then Panic "slice bounds out of range"
                 else Ok (VBytes (skipn (Z.to_nat (s64 (i + 1))) c))).
    { cbn [GoLang.eval]. unfold cur. rewrite (eval_cur _ _ K1). cbn [bind alookup].
      change (String.eqb "i" "i") with true. reflexivity. }
    rewrite E1, E2. cbn [lift].
    destruct ((s64 (i + 1) <? 0) || (blen c <? s64 (i + 1))) eqn:SL.
    { cbn [lift sim]. right. eauto. }
    cbn [lift].
    rewrite (p_store _ _ _ _ P _ w) by (rewrite p_push_get; [auto|tauto]).
    cbn [lift]. rewrite p_push_set by tauto. cbn [GoLang.store alookup].
    change (String.eqb "cur" "i") with false. cbn iota.
    rewrite p_other, (ek_cur _ _ K) by auto. cbn [lift].
    cbn [sim fst snd].
    exists [("i", VInt i)]. split; [cbn; intros y [<-|[]]; cbn; auto|]. reflexivity.
  - destruct (Struct r nm) as [s|] eqn:HS; [|discriminate]. injection H as <-.
    assert (EX : Extern s = false) by (destruct (Extern s); [discriminate CB|auto]).
    destruct (Hcall nm s c HS EX) as [->|(fields & args & HA & HF & HR)]; [left; reflexivity|].
    assert (LE := LT "err" (or_introl eq_refl)).
    assert (K1 : envok (("err", VNil) :: e) c) by (apply envok_push; auto; try discriminate; tauto).
    assert (G1 : pget _ _ _ _ P (("err", VNil) :: e) = Some w) by (rewrite p_push_get; [auto|tauto]).
    rewrite execs_cons. cbn [GoLang.exec zero].
    rewrite execs_cons. rewrite (exec_assign _ _ _ _ P _ (VStruct (camel nm) (zeros fields)) w) by
      (auto; cbn [GoLang.eval]; rewrite HF; reflexivity).
    rewrite p_push_set by tauto.
    set (e2 := pset _ _ _ _ P e (VStruct (camel nm) (zeros fields))).
    assert (G2 : pget _ _ _ _ P e2 = Some (VStruct (camel nm) (zeros fields))) by (eapply p_get_set; eauto).
    assert (K2 : envok (("err", VNil) :: e2) c).
    { unfold e2. rewrite <- p_push_set by tauto. apply envok_place; auto. }
    assert (G2' : pget _ _ _ _ P (("err", VNil) :: e2) = Some (VStruct (camel nm) (zeros fields)))
      by (rewrite p_push_get; [auto|tauto]).
    rewrite execs_cons. cbn [GoLang.exec].
    rewrite (p_eval _ _ _ _ P _ _ G2'). unfold cur. rewrite (eval_cur _ _ K2), (mapM_ctx _ _ _ _ K2 HA). cbn [lift].
    assert (ST : forall v rr x,
      lift (("err", VNil) :: e2) (store (("err", VNil) :: e2) L v) (fun e1 =>
        lift e1 (store e1 (LVar "cur") rr) (fun e3 =>
          lift e3 (store e3 (LVar "err") x) (fun e4 => (e4, SNext)))) =
      (("err", x) :: assign "cur" rr (pset _ _ _ _ P e v), SNext)).
    { intros v rr x. rewrite (p_store _ _ _ _ P _ _ _ G2'). cbn [lift]. rewrite p_push_set by tauto.
      unfold e2. rewrite (p_set_set _ _ _ _ P _ _ _ _ G). cbn [GoLang.store alookup].
      change (String.eqb "cur" "err") with false. cbn iota.
      rewrite p_other, (ek_cur _ _ K) by auto. cbn [lift assign].
      change (String.eqb "cur" "err") with false. cbn iota. cbn [alookup].
      change (String.eqb "err" "err") with true. cbn iota. cbn [lift assign].
      change (String.eqb "err" "err") with true. reflexivity. }
    destruct (call (VStruct (camel nm) (zeros fields)) (VBytes c) args) as [v' rr] eqn:CL.
    destruct (dcall nm cenv c) as [[v c']|m|m|]; cbn [ressim] in HR.
    + injection HR as -> ->. rewrite ST. rewrite execs_cons, exec_if.
      cbn [GoLang.eval alookup]. change (String.eqb "err" "err") with true. cbn [sim fst snd].
      exists [("err", VNil)]. split; [cbn; intros y [<-|[]]; cbn; auto|]. reflexivity.
    + destruct HR as (v & HR). injection HR as -> ->. rewrite ST. rewrite execs_cons, exec_if.
      cbn [GoLang.eval alookup]. change (String.eqb "err" "err") with true. cbn [bind lift].
      cbn [sim]. unfold block. cbn. eauto.
    + destruct HR as [->|(v & HR)]; [left; auto|]. injection HR as -> ->. right. eauto.
    + destruct HR as (v & HR). injection HR as -> ->. cbn [sim]. eauto.
Qed.

(* ---------- arrays ---------- *)

Section Arr.
Variable L : lval.
Variable pv : list string.
Variable root : string.
Variable P : place L pv root.
Hypothesis NC : ~ In "cur" pv.
Hypothesis RD : root <> "data".
Hypothesis RC : forall w, alookup root cenv <> Some w.
Notation get := (pget _ _ _ _ P).
Notation set := (pset _ _ _ _ P).
Lemma RCU : root <> "cur".
Proof. intros E; apply NC; rewrite <- E; apply (p_root _ _ _ _ P). Qed.

Lemma for_sim : forall t body bound (HI : ~ In "idx" pv) k,
  parseType camel r rv (LIdx L (EVar "idx")) t = Ok body ->
  checkBase r (map fst cenv) t = true ->
  In "idx" locs ->
  (forall y, In y (localsT t) -> ~ In y ("idx" :: pv) /\ In y locs) ->
  0 <= k < two63 ->
  forall e0, (forall i c v, eval (("idx", VInt i) :: assign "cur" (VBytes c) (set e0 v)) bound = Ok (VInt k)) ->
  forall m i c0 c l w, envok e0 c0 -> get e0 = Some w -> blen l = k -> 0 <= i <= k ->
  sim (forLoop types call n "idx" bound body m (("idx", VInt i) :: assign "cur" (VBytes c) (set e0 (VList l))))
      (decFor r dcall cenv d m t (k - i) c)
      (fun a y => y = (("idx", VInt k) :: assign "cur" (VBytes (snd a)) (set e0 (VList (firstn (Z.to_nat i) l ++ fst a))), SNext)).
Proof.
  intros t body bound HI k PT CB LI LT HK e0 HB.
  assert (RI : "idx" <> root) by (intros E; apply HI; rewrite E; apply (p_root _ _ _ _ P)).
  pose proof RCU as RCU.
  induction m as [|m IH]; intros i c0 c l w K G BL I; cbn [decFor forLoop].
  - set (e := ("idx", VInt i) :: assign "cur" (VBytes c) (set e0 (VList l))).
    cbn [GoLang.eval]. unfold e at 2. cbn [alookup]. change (String.eqb "idx" "idx") with true. cbn [bind].
    unfold e at 2. rewrite HB. cbn [bind evalBin lift].
    destruct (k - i <=? 0) eqn:D.
    + replace (i <? k) with false by lia. cbn [sim fst snd].
      assert (i = k) by lia. subst i. unfold e. do 4 f_equal. rewrite app_nil_r.
      rewrite firstn_all2; [reflexivity|]. unfold blen in BL. lia.
    + replace (i <? k) with true by lia. cbn [sim]. eauto.
  - set (e := ("idx", VInt i) :: assign "cur" (VBytes c) (set e0 (VList l))).
    cbn [GoLang.eval]. unfold e at 2. cbn [alookup]. change (String.eqb "idx" "idx") with true. cbn [bind].
    unfold e at 2. rewrite HB. cbn [bind evalBin lift].
    destruct (k - i <=? 0) eqn:D.
    + replace (i <? k) with false by lia. cbn [sim fst snd].
      assert (i = k) by lia. subst i. unfold e. do 4 f_equal. rewrite app_nil_r.
      rewrite firstn_all2; [reflexivity|]. unfold blen in BL. lia.
    + replace (i <? k) with true by lia.
      assert (K0 : envok (assign "cur" (VBytes c) (set e0 (VList l))) c)
        by (eapply envok_cur; apply envok_place; eauto).
      assert (K1 : envok e c) by (apply envok_push; auto; discriminate).
      assert (G0 : get (set e0 (VList l)) = Some (VList l)) by (eapply p_get_set; eauto).
      assert (G1 : get e = Some (VList l)).
      { unfold e. rewrite p_push_get, p_assign_get by auto. auto. }
      destruct (nthZ_some l i) as [u Hu]; [lia|].
      assert (G2 : pget _ _ _ _ (idxPlace types P HI) e = Some u).
      { cbn [idxPlace pget]. unfold idxGet. rewrite G1. unfold e. cbn [alookup].
        change (String.eqb "idx" "idx") with true. cbn iota. exact Hu. }
      assert (NC' : ~ In "cur" ("idx" :: pv)) by (intros [E|E]; [discriminate|auto]).
      pose proof (base_sim t _ _ _ (idxPlace types P HI) body e c u PT CB K1 G2 NC' RD RC LT) as S.
      unfold block. destruct (execs body e) as [e1 res].
      destruct (decBase r dcall cenv d t c) as [[v c1]|er|pm|]; cbn [sim bind fst snd] in S |- *.
      * destruct S as (pre & Hpre & E). injection E as -> ->.
        assert (PS : idxSet types P e v =
                     ("idx", VInt i) :: assign "cur" (VBytes c) (set e0 (VList (updN l (Z.to_nat i) v)))).
        { unfold idxSet. rewrite G1. unfold e at 1. cbn [alookup].
          change (String.eqb "idx" "idx") with true. cbn iota. unfold e.
          rewrite p_push_set, p_assign_set by auto. now rewrite (p_set_set _ _ _ _ P _ _ _ _ G). }
        rewrite PS. rewrite assign_push by discriminate. rewrite assign_assign.
        rewrite leave_app by (unfold e; cbn [List.length]; rewrite !assign_len, !p_len; reflexivity).
        cbn [alookup]. change (String.eqb "idx" "idx") with true. cbn [bind evalBin lift assign].
        change (String.eqb "idx" "idx") with true. cbn iota.
        assert (S1 : s64 (i + 1) = i + 1).
        { unfold s64. rewrite Z.mod_small by (unfold two64, two63 in *; lia).
          replace (i + 1 <? two63) with true by lia. reflexivity. }
        rewrite S1.
        specialize (IH (i + 1) c0 c1 (updN l (Z.to_nat i) v) w K G).
        replace (k - i - 1) with (k - (i + 1)) by lia.
        assert (BL' : blen (updN l (Z.to_nat i) v) = k) by (unfold blen in *; rewrite updN_len; auto).
        specialize (IH BL' ltac:(lia)).
        destruct (decFor r dcall cenv d m t (k - (i + 1)) c1) as [[vs c2]| | |]; cbn [sim bind fst snd] in *; auto.
        rewrite IH. do 4 f_equal.
        replace (Z.to_nat (i + 1)) with (S (Z.to_nat i)) by lia.
        rewrite firstn_updN by (unfold blen in *; lia). now rewrite <- app_assoc.
      * destruct S as (e' & E). injection E as -> ->. eauto.
      * destruct S as [->|(e' & E)]; [auto|]. injection E as -> ->. eauto.
      * destruct S as (e' & E). injection E as -> ->. eauto.
Qed.

Lemma while_sim : forall t body g (HT : ~ In "tmp" pv),
  parseType camel r rv (LVar "tmp") t = Ok body ->
  checkBase r (map fst cenv) t = true ->
  In "tmp" locs ->
  (forall y, In y (localsT t) -> y <> "tmp" /\ ~ In y pv /\ In y locs) ->
  forall e0 m c0 c l w, envok e0 c0 -> get e0 = Some w ->
  sim (whileLoop types call n (EBin BGt (ELen cur) (EInt 0))
         ([SVar "tmp" g] ++ body ++ [SAssign L (EAppend (lexpr L) (EVar "tmp"))]) m
         (assign "cur" (VBytes c) (set e0 (VList l))))
      (decWhile r dcall cenv d m t c)
      (fun a y => y = (assign "cur" (VBytes (snd a)) (set e0 (VList (l ++ fst a))), SNext)).
Proof.
  intros t body g HT PT CB LTm LT e0.
  pose proof RCU as RCU.
  induction m as [|m IH]; intros c0 c l w K G; cbn [decWhile whileLoop].
  all: assert (K1 : envok (assign "cur" (VBytes c) (set e0 (VList l))) c)
        by (eapply envok_cur; apply envok_place; eauto).
  all: cbn [GoLang.eval]; unfold cur at 1; rewrite (eval_cur _ _ K1); cbn [bind evalBin lift].
  - destruct (blen c <=? 0) eqn:D.
    + replace (0 <? blen c) with false by lia. cbn [sim fst snd]. now rewrite app_nil_r.
    + replace (0 <? blen c) with true by lia. cbn [sim]. eauto.
  - destruct (blen c <=? 0) eqn:D.
    + replace (0 <? blen c) with false by lia. cbn [sim fst snd]. now rewrite app_nil_r.
    + replace (0 <? blen c) with true by lia.
      set (e := assign "cur" (VBytes c) (set e0 (VList l))) in *.
      assert (G0 : get (set e0 (VList l)) = Some (VList l)) by (eapply p_get_set; eauto).
      assert (G1 : get e = Some (VList l)) by (unfold e; rewrite p_assign_get; auto).
      assert (K2 : envok (("tmp", zero g) :: e) c) by (apply envok_push; auto; discriminate).
      assert (TC : forall w, alookup "tmp" cenv <> Some w).
      { intros u Hu. apply Hcenv in Hu. tauto. }
      assert (LT' : forall y, In y (localsT t) -> ~ In y ["tmp"] /\ In y locs).
      { intros y Hy. destruct (LT y Hy) as (A & B & C). split; auto. intros [E|[]]; auto. }
      assert (GT : pget _ _ _ _ (varPlace types "tmp") (("tmp", zero g) :: e) = Some (zero g)) by reflexivity.
      assert (NT : ~ In "cur" ["tmp"]) by (intros [E|[]]; discriminate).
      pose proof (base_sim t _ _ _ (varPlace types "tmp") body (("tmp", zero g) :: e) c (zero g) PT CB K2 GT NT
                    ltac:(discriminate) TC LT') as S.
      unfold block. cbn [app]. rewrite execs_cons. cbn [GoLang.exec]. rewrite execs_app.
      destruct (execs body (("tmp", zero g) :: e)) as [e1 res].
      destruct (decBase r dcall cenv d t c) as [[v c1]|er|pm|]; cbn [sim bind fst snd] in S |- *.
      * destruct S as (pre & Hpre & E). injection E as -> ->. cbn [varPlace pset assign].
        change (String.eqb "tmp" "tmp") with true. cbn iota.
        unfold e at 1. rewrite !assign_assign.
        set (e2 := assign "cur" (VBytes c1) (set e0 (VList l))).
        assert (PT' : forall y, In y (map fst pre) -> y <> "tmp" /\ ~ In y pv) by (intros y Hy; apply Hpre, LT in Hy; tauto).
        assert (G2 : get (pre ++ ("tmp", v) :: e2) = Some (VList l)).
        { rewrite p_app_get by (intros y Hy; apply PT'; auto). rewrite p_push_get by auto. unfold e2. rewrite p_assign_get; auto. }
        rewrite execs_cons, (exec_assign _ _ _ _ P _ (VList (l ++ [v])) (VList l)); auto.
        2:{ cbn [GoLang.eval]. rewrite (p_eval _ _ _ _ P _ _ G2). cbn [bind].
            rewrite alookup_app_notin by (intros Hy; apply PT' in Hy; tauto). reflexivity. }
        rewrite p_app_set by (intros y Hy; apply PT'; auto). rewrite p_push_set by auto.
        cbn [GoLang.execs]. change (pre ++ ("tmp", v) :: set e2 (VList (l ++ [v]))) with (pre ++ [("tmp", v)] ++ set e2 (VList (l ++ [v]))).
        rewrite app_assoc.
        rewrite leave_app by (unfold e2, e; rewrite !p_len, !assign_len, !p_len; reflexivity).
        unfold e2. rewrite p_assign_set by auto. rewrite (p_set_set _ _ _ _ P _ _ _ _ G).
        specialize (IH c0 c1 (l ++ [v]) w K G). cbn [app] in IH.
        destruct (decWhile r dcall cenv d m t c1) as [[vs c2]| | |]; cbn [sim bind fst snd] in *; auto.
        rewrite IH. now rewrite <- app_assoc.
      * destruct S as (e' & E). injection E as -> ->. eauto.
      * destruct S as [->|(e' & E)]; [auto|]. injection E as -> ->. eauto.
      * destruct S as (e' & E). injection E as -> ->. eauto.
Qed.
End Arr.

(* ---------- lengths ---------- *)

(** The environment seen by the code of a member. *)
Definition menv (e : env) (fs : amap value) (c : bytes) : Prop :=
  envok e c /\ alookup rv e = Some (VStruct ty fs).
Definition upd (e : env) (fs : amap value) (c : bytes) : env :=
  assign "cur" (VBytes c) (assign rv (VStruct ty fs) e).

Lemma rv_cur : rv <> "cur". Proof. intros E. apply Hrv. rewrite E. tauto. Qed.
Lemma rv_data : rv <> "data". Proof. intros E. apply Hrv. rewrite E. tauto. Qed.
Lemma rv_cenv : forall w, alookup rv cenv <> Some w.
Proof. intros w H. apply Hcenv in H. tauto. Qed.

Lemma menv_push : forall e fs c y v, menv e fs c -> In y locs -> y <> "cur" -> y <> "data" ->
  menv ((y, v) :: e) fs c.
Proof.
  intros e fs c y v [K R] I N1 N2. split; [apply envok_push; auto|]. cbn [alookup].
  destruct (String.eqb_spec rv y); [subst; tauto|auto].
Qed.
Lemma menv_cur : forall e fs c c', menv e fs c -> menv (assign "cur" (VBytes c') e) fs c'.
Proof.
  intros e fs c c' [K R]. split; [eapply envok_cur; eauto|].
  rewrite alookup_assign_other; auto using rv_cur.
Qed.
Lemma menv_upd : forall e fs c fs' c', menv e fs c -> menv (upd e fs' c') fs' c'.
Proof.
  intros e fs c fs' c' [K R]. unfold upd. apply menv_cur with (c := c). split.
  - apply envok_assign; auto using rv_cur, rv_data, rv_cenv.
  - eapply alookup_assign_same; eauto.
Qed.
Lemma upd_upd : forall e fs c fs' c', upd (upd e fs c) fs' c' = upd e fs' c'.
Proof.
  intros. unfold upd. rewrite (assign_comm rv "cur") by apply rv_cur.
  now rewrite !assign_assign.
Qed.
Lemma upd_len : forall e fs c, List.length (upd e fs c) = List.length e.
Proof. intros. unfold upd. now rewrite !assign_len. Qed.
Lemma upd_push : forall y v e fs c, In y locs -> y <> "cur" -> upd ((y, v) :: e) fs c = (y, v) :: upd e fs c.
Proof.
  intros y v e fs c I N. unfold upd. rewrite assign_push by (intros <-; tauto).
  rewrite assign_push by auto. reflexivity.
Qed.
Lemma upd_id : forall e fs c, menv e fs c -> upd e fs c = e.
Proof.
  intros e fs c [K R]. unfold upd. rewrite (assign_same rv); auto. apply assign_same. apply (ek_cur _ _ K).
Qed.
Lemma upd_cur : forall e c c' fs', upd (assign "cur" c e) fs' c' = upd e fs' c'.
Proof.
  intros. unfold upd. rewrite (assign_comm rv "cur") by apply rv_cur.
  now rewrite !assign_assign.
Qed.

Lemma within_sim : forall {A} (upf : A -> amap value) body dbody nx k e fs c,
  menv e fs c -> In "restore" locs -> k <= blen c ->
  eval e nx = Ok (VInt k) -> (forall v, eval (("restore", v) :: e) nx = Ok (VInt k)) ->
  (forall e1 c1, menv e1 fs c1 -> sim (execs body e1) (dbody c1)
      (fun a y => y = (upd e1 (upf (fst a)) (snd a), SNext))) ->
  sim (block types call n ([SDecl "restore" (EFrom cur nx); SAssign (LVar "cur") (ETo cur nx)] ++ body ++
                 [assertEnd; SAssign (LVar "cur") (EVar "restore")]) e)
      (@decWithin A k c dbody)
      (fun a y => y = (upd e (upf (fst a)) (snd a), SNext)).
Proof.
  intros A upf body dbody nx k e fs c M LR KB E1 E2 HB. unfold decWithin, block.
  replace (blen c <? k) with false by lia. cbn [app]. rewrite execs_cons. cbn [GoLang.exec GoLang.eval].
  unfold cur at 1. rewrite (eval_cur _ _ (proj1 M)). cbn [bind]. rewrite E1. cbn [bind].
  destruct (k <? 0) eqn:K0.
  { cbn [orb lift sim]. eauto. }
  replace (blen c <? k) with false by lia. cbn [orb lift].
  set (rest := skipn (Z.to_nat k) c). set (part := firstn (Z.to_nat k) c).
  assert (M1 : menv (("restore", VBytes rest) :: e) fs c) by (apply menv_push; auto; discriminate).
  rewrite execs_cons, (exec_assign_cur _ c _ (VBytes part)); [|apply M1|].
  2:{ cbn [GoLang.eval]. unfold cur. rewrite (eval_cur _ _ (proj1 M1)). cbn [bind]. rewrite E2. cbn [bind].
      rewrite K0. replace (blen c <? k) with false by lia. reflexivity. }
  rewrite assign_push by discriminate.
  assert (M2 : menv (("restore", VBytes rest) :: assign "cur" (VBytes part) e) fs part).
  { rewrite <- assign_push by discriminate. eapply menv_cur; eauto. }
  rewrite execs_app. pose proof (HB _ _ M2) as S.
  destruct (execs body _) as [e1 res].
  destruct (dbody part) as [[a c1]|er|pm|]; cbn [sim bind fst snd] in S |- *.
  - injection S as -> ->. rewrite upd_push by (auto; discriminate). rewrite upd_cur.
    assert (M3 : menv (("restore", VBytes rest) :: upd e (upf a) c1) (upf a) c1).
    { rewrite <- upd_push by (auto; discriminate). eapply menv_upd; eauto. }
    destruct (0 <? blen c1) eqn:CL.
    + rewrite execs_cons, (end_fail _ _ (proj1 M3)) by lia. cbn [sim]. eauto.
    + rewrite execs_cons, (end_pass _ _ (proj1 M3)) by lia.
      rewrite execs_cons, (exec_assign_cur _ c1 _ (VBytes rest)); [|apply M3|reflexivity].
      cbn [GoLang.execs sim fst snd]. rewrite assign_push by discriminate.
      rewrite leave_cons by (rewrite assign_len, upd_len; reflexivity).
      unfold upd. now rewrite assign_assign.
  - destruct S as (e' & E). injection E as -> ->. eauto.
  - destruct S as [->|(e' & E)]; [auto|]. injection E as -> ->. eauto.
  - destruct S as (e' & E). injection E as -> ->. eauto.
Qed.

Lemma ref_eval : forall f e fs c x, menv e fs c -> refVal camel fs cenv f = Ok x ->
  eval e (refExpr camel rv f) = Ok (VInt x).
Proof.
  intros f e fs c x [K R] H. unfold refVal in H. unfold refExpr.
  destruct (String.eqb (rscope f) "").
  - cbn [GoLang.eval]. rewrite R. cbn [bind].
    destruct (alookup (camel (rname f)) fs) as [[]|]; cbn in H; try discriminate. now injection H as ->.
  - destruct (alookup (rscope f) cenv) as [[| | | |t cf| | |]|] eqn:E; cbn in H; try discriminate.
    cbn [GoLang.eval]. rewrite (ek_ctx _ _ K _ _ E). cbn [bind].
    destruct (alookup (camel (rname f)) cf) as [[]|]; cbn in H; try discriminate. now injection H as ->.
Qed.
Lemma ref_cases : forall fs f, (exists x, refVal camel fs cenv f = Ok x) \/ refVal camel fs cenv f = stuck.
Proof.
  intros. unfold refVal. destruct (String.eqb (rscope f) "").
  - destruct (alookup (camel (rname f)) fs) as [[]|]; cbn; eauto.
  - destruct (alookup (rscope f) cenv) as [[| | | |t cf| | |]|]; cbn; eauto.
    destruct (alookup (camel (rname f)) cf) as [[]|]; cbn; eauto.
Qed.

Lemma s64_le : forall x, 0 <= x -> s64 x <= x.
Proof. intros. unfold s64. destruct (x mod two64 <? two63) eqn:E; unfold two64, two63 in *; lia. Qed.
Lemma s64_lt : forall x, s64 x < two63.
Proof. intros. unfold s64. destruct (x mod two64 <? two63) eqn:E; unfold two64, two63 in *; lia. Qed.

(** Both kinds of length constraint. *)
Definition decConstr {A} (fs : amap value) (c : bytes) (l : lconstraint) (dbody : bytes -> outcome (A * bytes)) :=
  match l with
  | LRef f => k <- refVal camel fs cenv f ;; decWithin (s64 k) c dbody
  | LLeftover i => k <- integerOf r i ;; decLeaving k c dbody
  end.
Lemma constrained_sim : forall {A} (upf : A -> amap value) body dbody l ss e fs c,
  constrained camel r rv l body = Ok ss -> menv e fs c -> In "restore" locs ->
  (forall e1 c1, menv e1 fs c1 -> sim (execs body e1) (dbody c1)
      (fun a y => y = (upd e1 (upf (fst a)) (snd a), SNext))) ->
  sim (block types call n ss e) (@decConstr A fs c l dbody)
      (fun a y => y = (upd e (upf (fst a)) (snd a), SNext)).
Proof.
  intros A upf body dbody l ss e fs c H M LR HB. unfold constrained in H.
  apply bind_ok in H as ([check nx] & H1 & H). injection H as <-.
  destruct l as [f|i]; cbn [decConstr].
  - injection H1 as <- <-. destruct (ref_cases fs f) as [[x Hx]| ->]; [|left; auto].
    rewrite Hx. cbn [bind].
    assert (EV : forall e1, menv e1 fs c -> eval e1 (EToInt (refExpr camel rv f)) = Ok (VInt (s64 x))).
    { intros e1 M1. cbn [GoLang.eval]. rewrite (ref_eval _ _ _ _ _ M1 Hx). reflexivity. }
    destruct (blen c <? s64 x) eqn:D.
    + unfold decWithin. rewrite D. cbn [sim]. unfold block. cbn [app]. rewrite execs_cons.
      rewrite (check_fail _ c _ (s64 x)); [eauto|apply M|auto|lia].
    + unfold block. cbn [app]. rewrite execs_cons.
      rewrite (check_pass _ c _ (s64 x)); [|apply M|auto|lia].
      apply (within_sim upf) with (fs := fs); auto; try lia.
      intros v. apply EV. apply menv_push; auto; discriminate.
  - apply bind_ok in H1 as (k & Hk & H1). injection H1 as <- <-. rewrite Hk. cbn [bind].
    unfold decLeaving. destruct (k <? 0) eqn:K0; [left; auto|].
    destruct (blen c <? k) eqn:D.
    + cbn [sim]. unfold block. cbn [app]. rewrite execs_cons.
      rewrite (check_fail _ c _ k); [eauto|apply M|auto|lia].
    + unfold block. cbn [app]. rewrite execs_cons.
      rewrite (check_pass _ c _ k); [|apply M|auto|lia].
      assert (EV : forall e1, menv e1 fs c -> eval e1 (EBin BSub (ELen cur) (EInt k)) = Ok (VInt (s64 (blen c - k)))).
      { intros e1 M1. cbn [GoLang.eval]. unfold cur. rewrite (eval_cur _ _ (proj1 M1)). reflexivity. }
      apply (within_sim upf) with (fs := fs); auto.
      * pose proof (s64_le (blen c - k)). lia.
      * intros v. apply EV. apply menv_push; auto; discriminate.
Qed.

(* ---------- fields ---------- *)

Definition simType (F : string) (t : type) : Prop :=
  match t with
  | TFixed b s => checkBase r (map fst cenv) b = true /\ goodCount r s = true
  | TVar b None => checkBase r (map fst cenv) b = true
  | TVar b (Some (LLeftover i)) => checkBase r (map fst cenv) b = true /\ goodCount r i = true
  | TVar b (Some (LRef f)) => checkBase r (map fst cenv) b = true /\ (rscope f = "" -> camel (rname f) <> F)
  | _ => checkBase r (map fst cenv) t = true
  end.
(** What the field must hold beforehand: arrays have their size. *)
Definition shapeOf (t : type) (w : value) : Prop :=
  match t with
  | TFixed _ s => exists l, w = VList l /\ forall k, integerOf r s = Ok k -> blen l = k
  | _ => True
  end.

Lemma field_set : forall e fs c F v, menv e fs c ->
  fieldSet rv F e v = assign rv (VStruct ty (assign F v fs)) e.
Proof. intros e fs c F v [_ R]. unfold fieldSet. now rewrite R. Qed.

Lemma field_place : forall F, exists P : place (LField (LVar rv) F) [rv] rv,
  (forall e, pget _ _ _ _ P e = fieldGet rv F e) /\ (forall e v, pset _ _ _ _ P e v = fieldSet rv F e v).
Proof. intros F. exists (fieldPlace types rv F). split; reflexivity. Qed.

Lemma checkBase_locals : forall t y, checkBase r (map fst cenv) t = true -> In y (localsT t) ->
  y = "i" \/ y = "err".
Proof. intros [] y H I; cbn in *; try discriminate; intuition. Qed.

Lemma type_sim : forall F t ss e fs c w,
  parseType camel r rv (LField (LVar rv) F) t = Ok ss ->
  simType F t -> incl (localsT t) locs ->
  menv e fs c -> alookup F fs = Some w -> shapeOf t w ->
  sim (block types call n ss e) (decType camel r dcall n cenv d fs t c)
    (fun a y => y = (upd e (assign F (fst a) fs) (snd a), SNext)).
Proof.
  intros F t ss e fs c w H ST LT M HF SH.
  destruct (field_place F) as (P & PG0 & PS0).
  assert (NC : ~ In "cur" [rv]) by (intros [E|[]]; apply rv_cur; auto).
  assert (PG : forall e1 c1 fs1, menv e1 fs1 c1 -> pget _ _ _ _ P e1 = alookup F fs1).
  { intros e1 c1 fs1 [_ R]. rewrite PG0. unfold fieldGet. now rewrite R. }
  assert (PS : forall e1 c1 fs1 v, menv e1 fs1 c1 -> pset _ _ _ _ P e1 v = assign rv (VStruct ty (assign F v fs1)) e1).
  { intros. rewrite PS0. eapply field_set; eauto. }
  assert (LP : forall y, In y locs -> ~ In y [rv]) by (intros y I [<-|[]]; tauto).
  assert (G : pget _ _ _ _ P e = Some w) by (rewrite (PG _ _ _ M); auto).
  (* not an array *)
  assert (BASE : checkBase r (map fst cenv) t = true ->
    sim (block types call n ss e) (decBase r dcall cenv d t c)
      (fun a y => y = (upd e (assign F (fst a) fs) (snd a), SNext))).
  { intros CB.
    assert (LT2 : forall y, In y (localsT t) -> ~ In y [rv] /\ In y locs) by (intros y I; split; auto).
    pose proof (base_sim t _ _ _ P ss e c w H CB (proj1 M) G NC rv_data rv_cenv LT2) as S.
    unfold block. destruct (execs ss e) as [e1 res].
    destruct (decBase r dcall cenv d t c) as [[v c1]|er|pm|]; cbn [sim fst snd] in S |- *.
    - destruct S as (pre & _ & E). injection E as -> ->.
      rewrite leave_app by (rewrite assign_len, p_len; reflexivity).
      rewrite (PS _ _ _ _ M). reflexivity.
    - destruct S as (e' & E). injection E as -> ->. eauto.
    - destruct S as [->|(e' & E)]; [auto|]. injection E as -> ->. eauto.
    - destruct S as (e' & E). injection E as -> ->. eauto. }
  destruct t as [sz cst| | | |nm|b s|b cst]; try (apply BASE; exact ST).
  - (* fixed *)
    clear BASE. cbn [simType shapeOf localsT] in *. destruct ST as [CB GC]. destruct SH as (l & -> & LK).
    cbn [parseType] in H. apply bind_ok in H as (k & Hk & H). apply bind_ok in H as (body & Hb & H). injection H as <-.
    specialize (LK _ Hk). cbn [decType]. rewrite Hk. cbn [bind].
    assert (KB : 0 <= k < two63).
    { unfold goodCount in GC. apply integerOf_value in Hk. rewrite Hk in GC. lia. }
    assert (HI : ~ In "idx" [rv]) by (apply LP, LT; cbn; auto).
    assert (LT2 : forall y, In y (localsT b) -> ~ In y ["idx"; rv] /\ In y locs).
    { intros y I. assert (In y locs) by (apply LT; cbn; auto). split; auto. intros [E|E]; [|apply (LP y); auto].
      subst y. destruct (checkBase_locals _ _ CB I); discriminate. }
    pose proof (for_sim _ _ _ P NC rv_data rv_cenv b body (EInt k) HI k Hb CB (LT "idx" (or_introl eq_refl)) LT2 KB e
                  ltac:(reflexivity) n 0 c c l (VList l) (proj1 M) G LK ltac:(lia)) as S.
    replace (k - 0) with k in S by lia.
    assert (E0 : assign "cur" (VBytes c) (pset _ _ _ _ P e (VList l)) = e).
    { rewrite (PS _ _ _ _ M). rewrite (assign_same F) by auto. apply (upd_id _ _ _ M). }
    rewrite E0 in S. unfold block. rewrite execs_cons, exec_for.
    destruct (forLoop _ _ _ _ _ _ _ _) as [e1 res].
    destruct (decFor r dcall cenv d n b k c) as [[vs c1]|er|pm|]; cbn [sim bind fst snd] in S |- *.
    + injection S as -> ->. cbn [GoLang.execs].
      rewrite leave_cons by (rewrite assign_len, p_len; reflexivity).
      rewrite leave_same by (rewrite assign_len, p_len; reflexivity).
      rewrite (PS _ _ _ _ M). cbn. reflexivity.
    + destruct S as (e' & E). injection E as -> ->. eauto.
    + destruct S as [->|(e' & E)]; [auto|]. injection E as -> ->. eauto.
    + destruct S as (e' & E). injection E as -> ->. eauto.
  - (* variable *)
    clear BASE SH.
    assert (WH : forall g body e1 c1, checkBase r (map fst cenv) b = true -> incl ("tmp" :: localsT b) locs ->
      parseType camel r rv (LVar "tmp") b = Ok body -> menv e1 fs c1 ->
      sim (execs [SAssign (LField (LVar rv) F) (EMake g (EInt 0));
          SWhile (EBin BGt (ELen cur) (EInt 0))
            ([SVar "tmp" g] ++ body ++
             [SAssign (LField (LVar rv) F) (EAppend (lexpr (LField (LVar rv) F)) (EVar "tmp"))])] e1)
        ('(vs, c2) <- decWhile r dcall cenv d n b c1 ;; Ok (VList vs, c2))
        (fun a y => y = (upd e1 (assign F (fst a) fs) (snd a), SNext))).
    { intros g body e1 c1 CB LT1 Hb M1.
      assert (G1 : pget _ _ _ _ P e1 = Some w) by (rewrite (PG _ _ _ M1); auto).
      rewrite execs_cons, (exec_assign _ _ _ _ P _ (VList []) w) by auto.
      rewrite execs_cons, exec_while.
      assert (HT : ~ In "tmp" [rv]) by (apply LP, LT1; cbn; auto).
      assert (LT2 : forall y, In y (localsT b) -> y <> "tmp" /\ ~ In y [rv] /\ In y locs).
      { intros y I. assert (In y locs) by (apply LT1; cbn; auto). repeat split; auto.
        intros ->. destruct (checkBase_locals _ _ CB I); discriminate. }
      pose proof (while_sim _ _ _ P NC rv_data rv_cenv b body g HT Hb CB (LT1 "tmp" (or_introl eq_refl)) LT2
                    e1 n c1 c1 [] w (proj1 M1) G1) as S.
      assert (E0 : assign "cur" (VBytes c1) (pset _ _ _ _ P e1 (VList [])) = pset _ _ _ _ P e1 (VList [])).
      { apply assign_same. rewrite (PS _ _ _ _ M1). rewrite alookup_assign_other by (intros E; apply rv_cur; auto).
        apply (ek_cur _ _ (proj1 M1)). }
      rewrite E0 in S. 
      destruct (whileLoop _ _ _ _ _ _ _) as [e2 res].
      destruct (decWhile r dcall cenv d n b c1) as [[vs c2]|er|pm|]; cbn [sim bind fst snd app] in S |- *.
      - injection S as -> ->. cbn [GoLang.execs]. rewrite (PS _ _ _ _ M1). reflexivity.
      - destruct S as (e' & E). injection E as -> ->. eauto.
      - destruct S as [->|(e' & E)]; [auto|]. injection E as -> ->. eauto.
      - destruct S as (e' & E). injection E as -> ->. eauto. }
    destruct cst as [[f|i]|]; cbn [simType localsT] in *; cbn [parseType] in H; cbn [decType].
    + (* by reference *)
      destruct ST as [CB NF]. apply bind_ok in H as (g & Hg & H). apply bind_ok in H as (body & Hb & H). injection H as <-.
      destruct (ref_cases fs f) as [[x Hx]| ->]; [|left; auto]. rewrite Hx. cbn [bind]. rewrite Hg. cbn [bind].
      assert (EV : forall e1 c1, menv e1 fs c1 -> eval e1 (EToInt (refExpr camel rv f)) = Ok (VInt (s64 x))).
      { intros e1 c1 M1. cbn [GoLang.eval]. rewrite (ref_eval _ _ _ _ _ M1 Hx). reflexivity. }
      unfold block. rewrite execs_cons. cbn [GoLang.exec].
      change (eval e (EMake g (EToInt (refExpr camel rv f)))) with
        (v <- eval e (EToInt (refExpr camel rv f)) ;;
         match v with
         | VInt z => if (z <? 0) || (maxAlloc <? z * gsize g) then Panic "makeslice: len out of range"
                     else Ok (VList (repeat (zero g) (Z.to_nat z)))
         | _ => stuck end).
      rewrite (EV _ _ M). cbn [bind].
      destruct ((s64 x <? 0) || (maxAlloc <? s64 x * gsize g)) eqn:MK.
      { cbn [lift sim]. eauto. }
      cbn [lift]. rewrite (p_store _ _ _ _ P _ w) by auto. cbn [lift].
      set (l := repeat (zero g) (Z.to_nat (s64 x))).
      assert (BL : blen l = s64 x) by (unfold l, blen; rewrite repeat_length; lia).
      assert (KB : 0 <= s64 x < two63) by (pose proof (s64_lt x); lia).
      assert (HI : ~ In "idx" [rv]) by (apply LP, LT; cbn; auto).
      assert (LI : In "idx" locs) by (apply LT; cbn; auto).
      assert (LT2 : forall y, In y (localsT b) -> ~ In y ["idx"; rv] /\ In y locs).
      { intros y I. assert (In y locs) by (apply LT; cbn; auto). split; auto. intros [E|E]; [|apply (LP y); auto].
        subst y. destruct (checkBase_locals _ _ CB I); discriminate. }
      assert (HB : forall i c1 v, eval (("idx", VInt i) :: assign "cur" (VBytes c1) (pset _ _ _ _ P e v))
                     (EToInt (refExpr camel rv f)) = Ok (VInt (s64 x))).
      { intros i c1 v. rewrite (PS _ _ _ _ M).
        assert (M1 : menv (("idx", VInt i) :: upd e (assign F v fs) c1) (assign F v fs) c1).
        { apply menv_push; auto; try discriminate. eapply menv_upd; eauto. }
        cbn [GoLang.eval]. fold (upd e (assign F v fs) c1).
        rewrite (ref_eval _ _ _ _ x M1); [reflexivity|].
        unfold refVal in *. destruct (String.eqb_spec (rscope f) ""); auto.
        now rewrite alookup_assign_other by auto. }
      pose proof (for_sim _ _ _ P NC rv_data rv_cenv b body _ HI (s64 x) Hb CB LI LT2 KB e HB
                    n 0 c c l w (proj1 M) G BL ltac:(lia)) as S.
      replace (s64 x - 0) with (s64 x) in S by lia.
      assert (E0 : assign "cur" (VBytes c) (pset _ _ _ _ P e (VList l)) = pset _ _ _ _ P e (VList l)).
      { apply assign_same. rewrite (PS _ _ _ _ M). rewrite alookup_assign_other by (intros E; apply rv_cur; auto).
        apply (ek_cur _ _ (proj1 M)). }
      rewrite E0 in S. rewrite execs_cons, exec_for.
      destruct (forLoop _ _ _ _ _ _ _ _) as [e1 res].
      destruct (decFor r dcall cenv d n b (s64 x) c) as [[vs c1]|er|pm|]; cbn [sim bind fst snd] in S |- *.
      * injection S as -> ->. cbn [GoLang.execs].
        rewrite leave_cons by (rewrite assign_len, !p_len; reflexivity).
        rewrite leave_same by (rewrite assign_len, !p_len; reflexivity).
        rewrite (PS _ _ _ _ M). cbn. reflexivity.
      * destruct S as (e' & E). injection E as -> ->. eauto.
      * destruct S as [->|(e' & E)]; [auto|]. injection E as -> ->. eauto.
      * destruct S as (e' & E). injection E as -> ->. eauto.
    + (* leftover *)
      destruct ST as [CB GC]. apply bind_ok in H as (g & Hg & H). apply bind_ok in H as (body & Hb & H).
      apply (constrained_sim (fun v => assign F v fs)) with
        (dbody := fun c0 => '(vs, c1) <- decWhile r dcall cenv d n b c0 ;; Ok (VList vs, c1))
        (e := e) (fs := fs) (c := c) in H; auto.
      * apply LT; cbn; auto.
      * intros e1 c1 M1. apply WH; auto. intros y I. apply LT. cbn; auto.
    + (* remainder *)
      apply bind_ok in H as (g & Hg & H). apply bind_ok in H as (body & Hb & H). injection H as <-.
      unfold block. pose proof (WH g body e c ST ltac:(intros y I; apply LT; auto) Hb M) as S.
      destruct (execs _ e) as [e1 res].
      destruct ('(vs, c2) <- decWhile r dcall cenv d n b c ;; Ok (VList vs, c2)) as [[vs c1]|er|pm|];
        cbn [sim fst snd] in S |- *.
      * injection S as -> ->. rewrite leave_same by apply upd_len. reflexivity.
      * destruct S as (e' & E). injection E as -> ->. eauto.
      * destruct S as [->|(e' & E)]; [auto|]. injection E as -> ->. eauto.
      * destruct S as (e' & E). injection E as -> ->. eauto.
Qed.

(* ---------- members ---------- *)

Variable flds : list (string * type).
Hypothesis Hnd : NoDup (map (fun f => camel (fst f)) flds).
Hypothesis Htypes : forall nm t, In (nm, t) flds -> simType (camel nm) t.

Definition shaped (fs : amap value) : Prop :=
  forall nm t, In (nm, t) flds -> exists w, alookup (camel nm) fs = Some w /\ shapeOf t w.

Notation decType := (decType camel r dcall n cenv d).
Notation decMember := (decMember camel r dcall n cenv d).
Notation decMembers := (decMembers camel r dcall n cenv d).

Lemma decType_shape : forall F fs t c v c', simType F t -> decType fs t c = Ok (v, c') -> shapeOf t v.
Proof.
  intros F fs [] c v c' ST H; cbn [shapeOf]; auto. cbn [GenDecode.decType] in H.
  apply bind_ok in H as (k & Hk & H). apply bind_ok in H as ([vs c1] & Hv & H). injection H as <- <-.
  exists vs. split; auto. intros k' Hk'. rewrite Hk' in Hk. injection Hk as ->.
  apply decFor_len in Hv. cbn [simType] in ST. destruct ST as [_ GC]. unfold goodCount in GC.
  apply integerOf_value in Hk'. rewrite Hk' in GC. lia.
Qed.

Lemma shaped_assign : forall fs nm t v, In (nm, t) flds -> shaped fs -> shapeOf t v ->
  shaped (assign (camel nm) v fs).
Proof.
  intros fs nm t v I S SV nm' t' I'. destruct (String.eqb_spec (camel nm') (camel nm)) as [E|N].
  - assert (X : (nm', t') = (nm, t)).
    { clear - I I' E Hnd. induction flds as [|f l IH]; [destruct I|]. cbn in Hnd. inversion Hnd as [|? ? N ND]; subst.
      destruct I as [->|I]; destruct I' as [->|I']; auto.
      - exfalso. apply N. cbn. rewrite <- E. apply (in_map (fun f => camel (fst f)) l (nm', t') I').
      - exfalso. apply N. cbn. rewrite E. apply (in_map (fun f => camel (fst f)) l (nm, t) I). }
    injection X as -> ->. destruct (S _ _ I) as (w & Hw & _). exists v. split; auto.
    eapply alookup_assign_same; eauto.
  - destruct (S _ _ I') as (w & Hw & Sw). exists w. split; auto. now rewrite alookup_assign_other.
Qed.

Definition decDflt := fix dflt (cs : list ucase) (fs : amap value) (c : bytes) :=
  match cs with
  | [] => Ok (fs, c)
  | UCase None ms :: _ => decMembers ms fs c
  | UCase (Some _) _ :: cs' => dflt cs' fs c
  end.
Definition decPick (cs : list ucase) := fix pick (x : Z) (cs0 : list ucase) (fs : amap value) (c : bytes) :=
  match cs0 with
  | [] => decDflt cs fs c
  | UCase None _ :: cs' => pick x cs' fs c
  | UCase (Some l) ms :: cs' => if inList r x l then decMembers ms fs c else pick x cs' fs c
  end.
Lemma decMember_union : forall u tag len cs fs c, decMember (MUnion u tag len cs) fs c =
  let body c := (x <- refVal camel fs cenv tag ;; decPick cs x cs fs c) in
  match len with None => body c | Some l => decConstr fs c l body end.
Proof. intros. destruct len as [[]|]; reflexivity. Qed.

(** The case that is decoded, and what is decoded then. *)
Lemma decPick_in : forall all x cs fs c,
  (exists k ms, In (UCase k ms) (cs ++ all) /\ decPick all x cs fs c = decMembers ms fs c) \/
  decPick all x cs fs c = Ok (fs, c).
Proof.
  intros all x cs fs c. induction cs as [|[[l|] ms] cs IH]; cbn [decPick].
  - cbn [app]. induction all as [|[[l|] ms] all IH]; cbn [decDflt]; auto.
    + destruct IH as [(k & ms' & I & E)|E]; auto. left. exists k, ms'. cbn. auto.
    + left. exists None, ms. cbn. auto.
  - destruct (inList r x l).
    + left. exists (Some l), ms. cbn. auto.
    + destruct IH as [(k & ms' & I & E)|E]; auto. left. exists k, ms'. cbn. auto.
  - destruct IH as [(k & ms' & I & E)|E]; auto. left. exists k, ms'. cbn. auto.
Qed.

Lemma decMembers_shape : forall ms,
  Forall (fun m => incl (fieldsM m) flds -> forall fs c fs' c', shaped fs -> decMember m fs c = Ok (fs', c') -> shaped fs') ms ->
  incl (flat_map fieldsM ms) flds -> forall fs c fs' c', shaped fs -> decMembers ms fs c = Ok (fs', c') -> shaped fs'.
Proof.
  induction ms as [|m ms IH]; intros F I fs c fs' c' S H; cbn [GenDecode.decMembers] in H.
  - now injection H as <- <-.
  - apply bind_ok in H as ([fs1 c1] & H1 & H). eapply IH; [eapply Forall_inv_tail; eauto| | |exact H].
    + intros y Hy. apply I. cbn. apply in_or_app. auto.
    + eapply (Forall_inv F); eauto. intros y Hy. apply I. cbn. apply in_or_app. auto.
Qed.

Lemma decMember_shape : forall m, incl (fieldsM m) flds -> forall fs c fs' c', shaped fs ->
  decMember m fs c = Ok (fs', c') -> shaped fs'.
Proof.
  induction m as [nm t|u tag len cs IH| | |] using member_ind'; intros I fs c fs' c' S H.
  - cbn [GenDecode.decMember] in H. apply bind_ok in H as ([v c1] & H1 & H). injection H as <- <-.
    assert (In (nm, t) flds) by (apply I; cbn; auto).
    eapply shaped_assign; eauto. eapply decType_shape; eauto.
  - rewrite decMember_union in H. cbn zeta in H.
    assert (B : forall c0 fs1 c1, (x <- refVal camel fs cenv tag ;; decPick cs x cs fs c0) = Ok (fs1, c1) -> shaped fs1).
    { intros c0 fs1 c1 E. apply bind_ok in E as (x & _ & E).
      destruct (decPick_in cs x cs fs c0) as [(k & ms & IN & E')|E'].
      - rewrite E' in E. assert (IN' : In (UCase k ms) cs) by (apply in_app_or in IN; tauto).
        rewrite Forall_forall in IH. apply (decMembers_shape ms (IH _ IN')) in E; auto.
        intros y Hy. apply I. cbn [fieldsM]. apply in_flat_map. exists (UCase k ms). auto.
      - rewrite E' in E. now injection E as <- <-. }
    assert (W : forall k c0 fs1 c1, decWithin k c0 (fun c => x <- refVal camel fs cenv tag ;; decPick cs x cs fs c) = Ok (fs1, c1) -> shaped fs1).
    { intros k c0 fs1 c1 E. unfold decWithin in E. destruct (blen c0 <? k); [discriminate|].
      destruct (k <? 0); [discriminate|]. apply bind_ok in E as ([fs2 c2] & E1 & E). cbn in E.
      destruct (0 <? blen c2); [discriminate|]. injection E as <- <-. eapply B; eauto. }
    destruct len as [[f|i]|]; cbn [decConstr] in H; [| |eapply B; eauto].
    + apply bind_ok in H as (k & _ & H). eapply W; eauto.
    + apply bind_ok in H as (k & _ & H). unfold decLeaving in H. destruct (k <? 0); [discriminate|].
      destruct (blen c <? k); [discriminate|]. eapply W; eauto.
  - cbn in H. destruct (0 <? blen c); [discriminate|]. now injection H as <- <-.
  - discriminate.
  - now injection H as <- <-.
Qed.

Fixpoint caseLists (m : member) : list intlist :=
  match m with
  | MUnion _ _ _ cs =>
      flat_map (fun c => match c with UCase l ms =>
        (match l with Some l' => [l'] | None => [] end) ++ flat_map caseLists ms end) cs
  | _ => []
  end.

Notation parseMember := (parseMember camel r rv).
Fixpoint parseCases (tag : idref) (cs : list ucase) : outcome (list (option expr * list stmt)) :=
  match cs with
  | [] => Ok []
  | UCase None ms :: cs' =>
      b <- mapM parseMember ms ;; rest <- parseCases tag cs' ;; Ok ((None, b) :: rest)
  | UCase (Some l) ms :: cs' =>
      c <- conditional r (refExpr camel rv tag) l ;;
      b <- mapM parseMember ms ;; rest <- parseCases tag cs' ;; Ok ((Some c, b) :: rest)
  end.
Lemma parseMember_union : forall u tag len cs, parseMember (MUnion u tag len cs) =
  (cases <- parseCases tag cs ;;
   match len with
   | None => Ok (SBlock [SSwitch cases])
   | Some c => b <- constrained camel r rv c [SSwitch cases] ;; Ok (SBlock b)
   end).
Proof.
  intros. cbn [GenModel.parseMember]. f_equal.
  induction cs as [|[[l|] ms] cs IH]; cbn [parseCases]; auto.
  - destruct (conditional r (refExpr camel rv tag) l); auto. cbn [bind].
    match goal with |- bind ?X _ = _ => replace X with (mapM parseMember ms) end.
    + destruct (mapM parseMember ms); auto. cbn [bind]. now rewrite IH.
    + clear. induction ms as [|m ms IH]; cbn [mapM]; auto. destruct (parseMember m); auto. cbn [bind]. now rewrite IH.
  - match goal with |- bind ?X _ = _ => replace X with (mapM parseMember ms) end.
    + destruct (mapM parseMember ms); auto. cbn [bind]. now rewrite IH.
    + clear. induction ms as [|m ms IH]; cbn [mapM]; auto. destruct (parseMember m); auto. cbn [bind]. now rewrite IH.
Qed.

Definition good (e : env) (a : amap value * bytes) (y : env * sres) : Prop := y = (upd e (fst a) (snd a), SNext).

Lemma sim_block : forall {A} ss e (o : outcome A) (fin : A -> env),
  (forall a, List.length (fin a) = List.length e) ->
  sim (execs ss e) o (fun a y => y = (fin a, SNext)) ->
  sim (block types call n ss e) o (fun a y => y = (fin a, SNext)).
Proof.
  intros A ss e o fin HL S. unfold block. destruct (execs ss e) as [e1 res].
  destruct o as [a|er|pm|]; cbn [sim] in *.
  - injection S as -> ->. now rewrite leave_same.
  - destruct S as (e' & E). injection E as -> ->. eauto.
  - destruct S as [->|(e' & E)]; [auto|]. injection E as -> ->. eauto.
  - destruct S as (e' & E). injection E as -> ->. eauto.
Qed.

Definition msim (m : member) : Prop :=
  forall s e fs c, parseMember m = Ok s -> incl (fieldsM m) flds -> incl (localsM m) locs ->
  (forall l, In l (caseLists m) -> l <> []) -> menv e fs c -> shaped fs ->
  sim (exec s e) (decMember m fs c) (good e).

Lemma members_sim : forall ms, Forall msim ms -> forall ss e fs c,
  mapM parseMember ms = Ok ss -> incl (flat_map fieldsM ms) flds -> incl (flat_map localsM ms) locs ->
  (forall l, In l (flat_map caseLists ms) -> l <> []) -> menv e fs c -> shaped fs ->
  sim (execs ss e) (decMembers ms fs c) (good e).
Proof.
  induction ms as [|m ms IH]; intros F ss e fs c H IF IL IC M S; cbn [mapM] in H; cbn [GenDecode.decMembers].
  - injection H as <-. cbn [sim good fst snd GoLang.execs]. unfold good. cbn [fst snd]. now rewrite upd_id.
  - apply bind_ok in H as (s & Hs & H). apply bind_ok in H as (ss' & Hss & H). injection H as <-.
    assert (IF1 : incl (fieldsM m) flds) by (intros y Hy; apply IF; cbn; apply in_or_app; auto).
    pose proof (Forall_inv F s e fs c Hs IF1
      ltac:(intros y Hy; apply IL; cbn; apply in_or_app; auto)
      ltac:(intros y Hy; apply IC; cbn; apply in_or_app; auto) M S) as S1.
    rewrite execs_cons. destruct (exec s e) as [e1 res].
    destruct (decMember m fs c) as [[fs1 c1]|er|pm|] eqn:D; cbn [sim bind] in S1 |- *.
    + unfold good in S1. cbn [fst snd] in S1. injection S1 as -> ->.
      assert (M1 : menv (upd e fs1 c1) fs1 c1) by (eapply menv_upd; eauto).
      assert (SH : shaped fs1) by (eapply decMember_shape; eauto).
      pose proof (IH (Forall_inv_tail F) ss' _ _ _ Hss
        ltac:(intros y Hy; apply IF; cbn; apply in_or_app; auto)
        ltac:(intros y Hy; apply IL; cbn; apply in_or_app; auto)
        ltac:(intros y Hy; apply IC; cbn; apply in_or_app; auto) M1 SH) as S2.
      destruct (decMembers ms fs1 c1) as [[fs2 c2]| | |]; cbn [sim] in S2 |- *; auto.
      unfold good in *. cbn [fst snd] in *. now rewrite upd_upd in S2.
    + destruct S1 as (e' & E). injection E as -> ->. eauto.
    + destruct S1 as [->|(e' & E)]; [auto|]. injection E as -> ->. eauto.
    + destruct S1 as (e' & E). injection E as -> ->. eauto.
Qed.

Lemma switch_sim : forall tag cs, Forall (fun c => Forall msim (ucase_members c)) cs -> forall cases e fs c,
  parseCases tag cs = Ok cases ->
  incl (flat_map (fun c => match c with UCase _ ms => flat_map fieldsM ms end) cs) flds ->
  incl (flat_map (fun c => match c with UCase _ ms => flat_map localsM ms end) cs) locs ->
  (forall l, In l (caseLists (MUnion "" tag None cs)) -> l <> []) ->
  menv e fs c -> shaped fs ->
  sim (exec (SSwitch cases) e) (x <- refVal camel fs cenv tag ;; decPick cs x cs fs c) (good e).
Proof.
  intros tag cs F cases e fs c H IF IL IC M S.
  destruct (ref_cases fs tag) as [[x Hx]| ->]; [|left; auto]. rewrite Hx. cbn [bind].
  rewrite exec_switch.
  assert (MS : forall k ms b, In (UCase k ms) cs -> mapM parseMember ms = Ok b ->
    sim (block types call n b e) (decMembers ms fs c) (good e)).
  { intros k ms b I Hb. apply sim_block; [intros; apply upd_len|].
    rewrite Forall_forall in F. apply (members_sim ms (F _ I)); auto.
    - intros y Hy. apply IF. apply in_flat_map. exists (UCase k ms). auto.
    - intros y Hy. apply IL. apply in_flat_map. exists (UCase k ms). auto.
    - intros l Hl. apply IC. cbn [caseLists]. apply in_flat_map. exists (UCase k ms). split; auto. apply in_or_app. auto. }
  assert (DF : forall cs' cases', incl cs' cs -> parseCases tag cs' = Ok cases' ->
    sim (swDefault types call n e cases') (decDflt cs' fs c) (good e)).
  { induction cs' as [|[[l|] ms] cs' IH]; intros cases' I Hc; cbn [parseCases] in Hc.
    - injection Hc as <-. cbn [swDefault decDflt sim]. unfold good. cbn [fst snd]. now rewrite upd_id.
    - apply bind_ok in Hc as (ce & _ & Hc). apply bind_ok in Hc as (b & Hb & Hc). apply bind_ok in Hc as (rest & Hr & Hc).
      injection Hc as <-. cbn [swDefault decDflt]. apply IH; auto. intros y Hy. apply I. cbn; auto.
    - apply bind_ok in Hc as (b & Hb & Hc). apply bind_ok in Hc as (rest & Hr & Hc).
      injection Hc as <-. cbn [swDefault decDflt]. apply (MS None); auto. apply I. cbn; auto. }
  assert (PK : forall cs' cases', incl cs' cs -> parseCases tag cs' = Ok cases' ->
    sim (swPick types call n e cases cases') (decPick cs x cs' fs c) (good e)).
  { induction cs' as [|[[l|] ms] cs' IH]; intros cases' I Hc; cbn [parseCases] in Hc.
    - injection Hc as <-. cbn [swPick decPick]. apply DF; auto. intros y Hy; auto.
    - apply bind_ok in Hc as (ce & Hce & Hc). apply bind_ok in Hc as (b & Hb & Hc). apply bind_ok in Hc as (rest & Hr & Hc).
      injection Hc as <-. cbn [swPick decPick].
      rewrite (conditional_eval _ _ _ _ x _ _ Hce).
      + cbn [lift]. destruct (inList r x l).
        * apply (MS (Some l)); auto. apply I. cbn; auto.
        * apply IH; auto. intros y Hy. apply I. cbn; auto.
      + apply IC. cbn [caseLists]. apply in_flat_map. exists (UCase (Some l) ms).
        split; [apply I; cbn; auto|]. cbn. auto.
      + eapply ref_eval; eauto.
    - apply bind_ok in Hc as (b & Hb & Hc). apply bind_ok in Hc as (rest & Hr & Hc).
      injection Hc as <-. cbn [swPick decPick]. apply IH; auto. intros y Hy. apply I. cbn; auto. }
  apply PK; auto. intros y Hy; auto.
Qed.

Lemma member_sim : forall m, msim m.
Proof.
  induction m as [nm t|u tag len cs IH| | |] using member_ind'; intros s e fs c H IF IL IC M S.
  - cbn [GenModel.parseMember] in H. apply bind_ok in H as (b & Hb & H). injection H as <-.
    rewrite exec_block. cbn [GenDecode.decMember].
    assert (I : In (nm, t) flds) by (apply IF; cbn; auto).
    destruct (S _ _ I) as (w & Hw & SW).
    pose proof (type_sim (camel nm) t b e fs c w Hb (Htypes _ _ I) IL M Hw SW) as S1.
    destruct (decType fs t c) as [[v c1]| | |]; cbn [sim bind fst snd] in S1 |- *; auto.
  - rewrite parseMember_union in H. apply bind_ok in H as (cases & Hc & H).
    rewrite decMember_union. cbn zeta. cbn [fieldsM localsM] in IF, IL.
    assert (SW : forall e1 c1, menv e1 fs c1 ->
      sim (execs [SSwitch cases] e1) (x <- refVal camel fs cenv tag ;; decPick cs x cs fs c1)
          (fun a y => y = (upd e1 (fst a) (snd a), SNext))).
    { intros e1 c1 M1. rewrite execs_cons.
      pose proof (switch_sim tag cs IH cases e1 fs c1 Hc IF
        ltac:(intros y Hy; apply IL; apply in_or_app; auto) IC M1 S) as S1.
      destruct (exec (SSwitch cases) e1) as [e2 res].
      destruct (x <- refVal camel fs cenv tag ;; decPick cs x cs fs c1) as [[fs1 c2]|er|pm|]; cbn [sim] in S1 |- *.
      - unfold good in S1. injection S1 as -> ->. reflexivity.
      - destruct S1 as (e' & E). injection E as -> ->. eauto.
      - destruct S1 as [->|(e' & E)]; [auto|]. injection E as -> ->. eauto.
      - destruct S1 as (e' & E). injection E as -> ->. eauto. }
    destruct len as [l|].
    + apply bind_ok in H as (b & Hb & H). injection H as <-. rewrite exec_block.
      apply (constrained_sim (fun a => a)) with (body := [SSwitch cases]) (fs := fs); auto.
      apply IL. cbn. auto.
    + injection H as <-. rewrite exec_block. apply sim_block; [intros; apply upd_len|]. apply SW; auto.
  - injection H as <-. rewrite exec_block. cbn [GenDecode.decMember]. unfold block.
    destruct (0 <? blen c) eqn:D; cbn [sim].
    + rewrite execs_cons, (end_fail _ _ (proj1 M)) by lia. eauto.
    + rewrite execs_cons, (end_pass _ _ (proj1 M)) by lia. cbn. unfold good. cbn [fst snd].
      rewrite upd_id by auto. now rewrite leave_same.
  - injection H as <-. rewrite exec_block. cbn. unfold block. cbn. eauto.
  - injection H as <-. rewrite exec_block. cbn [GenDecode.decMember sim]. unfold block.
    rewrite execs_cons, (exec_assign_cur _ c _ (VBytes [])); [|apply M|reflexivity].
    cbn [GoLang.execs]. unfold good, upd. cbn [fst snd].
    rewrite (assign_same rv) by apply M. rewrite leave_same; auto. apply assign_len.
Qed.

(** The statements of a whole struct. *)
Theorem body_sim : forall ms ss e fs c, mapM parseMember ms = Ok ss ->
  incl (flat_map fieldsM ms) flds -> incl (flat_map localsM ms) locs ->
  (forall l, In l (flat_map caseLists ms) -> l <> []) -> menv e fs c -> shaped fs ->
  sim (execs ss e) (decMembers ms fs c) (good e).
Proof.
  intros. apply members_sim; auto. apply Forall_forall. intros m _. apply member_sim.
Qed.
End Body.
