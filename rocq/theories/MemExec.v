(** Statements do on the machine with memory what they do on the one without,
    if every object has one owner and the input is only read. *)
From Coq Require Import ZArith String List Bool Lia ZifyBool ZifyNat Permutation.
From Verif Require Import Base GoLang GenSim GoMem MemSim MemPath.
Import ListNotations.
Open Scope string_scope.
Open Scope list_scope.
Open Scope Z_scope.

Section Old.
Context {oldI : Old}.

(* ---------- unfolding the interpreter ---------- *)

Section Unfold.
Variable pl : platform.
Variable types : amap (list (string * gtype)).
Variable call : hcallfun.
Variable n : nat.
Notation heval := (heval pl types).
Notation hexec := (hexec pl types call n).
Notation hexecs := (hexecs pl types call n).

Definition hblock (b : list stmt) (H : heap) (e : henv) : hstate :=
  let '(H1, e1, r) := hexecs b H e in (H1, hleave e e1, r).
Lemma hexec_block : forall b H e, hexec (SBlock b) H e = hblock b H e.
Proof. reflexivity. Qed.
Lemma hexec_if : forall c b H e, hexec (SIf c b) H e =
  hlift H e (heval H e c) (fun '(v, H) =>
    match v with HBool true => hblock b H e | HBool false => (H, e, HNext) | _ => (H, e, HPanic "ill-typed") end).
Proof. reflexivity. Qed.
Definition hforLoop (x : string) (bound : expr) (b : list stmt) := fix loop (m : nat) (H : heap) (e : henv) {struct m} : hstate :=
  hlift H e (heval H e (EBin BLt (EVar x) bound)) (fun '(v, H) =>
  match v with
  | HBool false => (H, e, HNext)
  | HBool true =>
      match m with
      | O => (H, e, HFuel)
      | S m' =>
          let '(H1, e1, r) := hblock b H e in
          match r with
          | HNext =>
              hlift H1 e1 (heval H1 e1 (EBin BAdd (EVar x) (EInt 1)))
                (fun '(w, H2) => loop m' H2 (hassign x w e1))
          | _ => (H1, e1, r)
          end
      end
  | _ => (H, e, HPanic "ill-typed")
  end).
Lemma hexec_for : forall x bound b H e, hexec (SForLt x bound b) H e =
  let '(H1, e1, r) := hforLoop x bound b n H ((x, HInt 0) :: e) in (H1, hleave e e1, r).
Proof. reflexivity. Qed.
Definition hwhileLoop (c : expr) (b : list stmt) := fix loop (m : nat) (H : heap) (e : henv) {struct m} : hstate :=
  hlift H e (heval H e c) (fun '(v, H) =>
  match v with
  | HBool false => (H, e, HNext)
  | HBool true =>
      match m with
      | O => (H, e, HFuel)
      | S m' =>
          let '(H1, e1, r) := hblock b H e in
          match r with HNext => loop m' H1 e1 | _ => (H1, e1, r) end
      end
  | _ => (H, e, HPanic "ill-typed")
  end).
Lemma hexec_while : forall c b H e, hexec (SWhile c b) H e = hwhileLoop c b n H e.
Proof. reflexivity. Qed.
Definition hswDefault (e : henv) := fix default (cs : list (option expr * list stmt)) (H : heap) : hstate :=
  match cs with
  | [] => (H, e, HNext)
  | (None, b) :: _ => hblock b H e
  | (Some _, _) :: cs' => default cs' H
  end.
Definition hswPick (e : henv) (all : list (option expr * list stmt)) := fix pick (cs0 : list (option expr * list stmt)) (H : heap) : hstate :=
  match cs0 with
  | [] => hswDefault e all H
  | (None, _) :: cs' => pick cs' H
  | (Some c, b) :: cs' =>
      hlift H e (heval H e c) (fun '(v, H) =>
      match v with
      | HBool true => hblock b H e
      | HBool false => pick cs' H
      | _ => (H, e, HPanic "ill-typed")
      end)
  end.
Lemma hexec_switch : forall cs H e, hexec (SSwitch cs) H e = hswPick e cs cs H.
Proof. reflexivity. Qed.
Lemma hexecs_cons : forall s ss H e, hexecs (s :: ss) H e =
  let '(H1, e1, r) := hexec s H e in match r with HNext => hexecs ss H1 e1 | _ => (H1, e1, r) end.
Proof. reflexivity. Qed.
Lemma hexecs_app : forall a b H e, hexecs (a ++ b) H e =
  let '(H1, e1, r) := hexecs a H e in match r with HNext => hexecs b H1 e1 | _ => (H1, e1, r) end.
Proof.
  induction a as [|s a IH]; intros b H e; [reflexivity|]. cbn [app]. rewrite !hexecs_cons.
  destruct (hexec s H e) as [[H1 e1] []]; auto.
Qed.
End Unfold.

(* ---------- the statements ---------- *)

(** Right sides by where their values may go. *)
Definition scalarE (G : ctx) (a : expr) : bool :=
  pureE G a && match a with
               | EIdx (EVar x) _ => isShr G x
               | EBigEndian _ _ | EStringOf _ | EBin BSub _ _ | EBin BAdd _ _ => true
               | _ => false
               end.
Definition shrE (G : ctx) (a : expr) : bool :=
  match a with
  | EVar x => isShr G x
  | EFrom _ _ | ETo _ _ | EIndexByte _ _ => pureE G a
  | ENil | EError _ | EEmptyBytes => true
  | _ => false
  end.
Definition freshE (G : ctx) (a : expr) : bool :=
  match a with
  | ENew _ => true
  | EMake _ n => pureE G n
  | _ => false
  end.

Definition freezeK (k : kind) : kind := match k with KShr => KShr | _ => KFrozen end.
Definition freeze (G : ctx) : ctx := map (fun xk => (fst xk, freezeK (snd xk))) G.

(** [ari n k]: the Parse method of type [n] has [k] parameters besides the data. *)
Section Ok.
Variable ari : string -> nat -> Prop.
Inductive okS : ctx -> stmt -> ctx -> Prop :=
| okDecl G x a : shrE G a = true -> okS G (SDecl x a) ((x, KShr) :: G)
| okVarM G x t : okS G (SVar x t) ((x, KMine) :: G)
| okVarE G x : okS G (SVar x GError) ((x, KShr) :: G)
| okSet G l a : okL G l = true -> selfVar G l = false -> (scalarE G a = true \/ freshE G a = true) -> okS G (SAssign l a) G
| okSetV G x a : isShr G x = true -> shrE G a = true -> okS G (SAssign (LVar x) a) G
| okSet2 G l x a b : okL G l = true -> selfVar G l = false -> scalarE G a = true -> isShr G x = true -> shrE G b = true -> pureE G b = true ->
    okS G (SAssign2 l (LVar x) a b) G
| okIf G c b G' : pureE G c = true -> okB G b G' -> okS G (SIf c b) G
| okBlock G b G' : okB G b G' -> okS G (SBlock b) G
| okFor G x bound b G' : pureE ((x, KShr) :: G) bound = true -> okB ((x, KShr) :: G) b G' -> okS G (SForLt x bound b) G
| okSwitch G cs : okC G cs -> okS G (SSwitch cs) G
| okReturn G a b : shrE G a = true -> shrE G b = true -> okS G (SReturn a b) G
with okB : ctx -> list stmt -> ctx -> Prop :=
| okNil G : okB G [] G
| okCons G s b G1 G2 : okS G s G1 -> okB G1 b G2 -> okB G (s :: b) G2
| okNew G l n x err y ys b G' :
    okL G l = true -> selfVar G l = false -> isShr G x = true -> isShr G err = true -> isShr G y = true -> forallb (isShr G) ys = true ->
    ari n (List.length ys) -> okB G b G' ->
    okB G (SAssign l (ENew n) :: SParse x err l (EVar y) (map EVar ys) :: b) G'
| okFill G g r f c x body d b G' :
    isOwner G r = true -> r <> x -> pureE G c = true ->
    okB ((x, KMine) :: freeze G) body (d ++ (x, KMine) :: freeze G) -> ~ In x (map fst d) -> ~ In r (map fst d) ->
    okB G b G' ->
    okB G (SAssign (LField (LVar r) f) (EMake g (EInt 0)) ::
           SWhile c (SVar x g :: body ++ [SAssign (LField (LVar r) f) (EAppend (ESel (EVar r) f) (EVar x))]) :: b) G'
with okC : ctx -> list (option expr * list stmt) -> Prop :=
| okCnil G : okC G []
| okCsome G c b G' cs : pureE G c = true -> okB G b G' -> okC G cs -> okC G ((Some c, b) :: cs)
| okCnone G b G' cs : okB G b G' -> okC G cs -> okC G ((None, b) :: cs).
Scheme okS_mut := Minimality for okS Sort Prop with okB_mut := Minimality for okB Sort Prop with okC_mut := Minimality for okC Sort Prop.
Combined Scheme ok_ind from okS_mut, okB_mut, okC_mut.
End Ok.

(* ---------- lists of variables ---------- *)

Definition warm (d : ctx) : Prop := Forall (fun xk => snd xk <> KFrozen) d.

(** Memory [H'] with owned objects [fp'] came from [H] with [fp]: other objects
    are as before. *)
Definition ext (H : heap) (fp : list loc) (H' : heap) (fp' : list loc) : Prop :=
  (List.length H <= List.length H')%nat /\
  (forall l, (l < List.length H)%nat -> ~ In l fp -> nth_error H' l = nth_error H l) /\
  (forall l, In l fp' -> In l fp \/ (List.length H <= l)%nat).
Lemma ext_refl : forall H fp, ext H fp H fp.
Proof. intros. split; [lia|]. split; auto. Qed.
Lemma ext_trans : forall H fp H1 fp1 H2 fp2, ext H fp H1 fp1 -> ext H1 fp1 H2 fp2 -> ext H fp H2 fp2.
Proof.
  intros H fp H1 fp1 H2 fp2 (A1 & A2 & A3) (B1 & B2 & B3). split; [lia|]. split.
  - intros l L N. rewrite B2; [apply A2; auto|lia|]. intros I. destruct (A3 _ I); [contradiction|lia].
  - intros l I. destruct (B3 _ I) as [J|J]; [auto|right; lia].
Qed.
Lemma ext_sub : forall H fp H1 fp1 fp2, ext H fp H1 fp1 -> (forall l, In l fp2 -> In l fp1) -> ext H fp H1 fp2.
Proof. intros H fp H1 fp1 fp2 (A1 & A2 & A3) S. split; auto. Qed.
Lemma ext_app : forall H fp a, ext H fp (H ++ a) fp.
Proof.
  intros. split; [rewrite app_length; lia|]. split; auto. intros l L _. now apply nth_error_app1.
Qed.

Section Good.
Variable ro : loc -> Prop.
Variable self : hval.
Notation envR := (envR ro self).

Record good (H : heap) (G : ctx) (e : env) (he : henv) (fp : list loc) (fz : list (value * hval)) : Prop := mkGood {
  g_env : envR H G e he fp fz;
  g_nd : NoDup fp;
  g_ro : forall l, In l fp -> ~ ro l;
  g_in : forall l, ro l -> (l < List.length H)%nat }.

Lemma ext_agree_ro : forall H G e he fp fz H' fp', good H G e he fp fz -> ext H fp H' fp' -> agree ro H H'.
Proof.
  intros H G e he fp fz H' fp' [] (A1 & A2 & A3) l R. apply A2; auto. intros I. eapply g_ro0; eauto.
Qed.

Lemma good_app : forall H a G e he fp fz, good H G e he fp fz -> good (H ++ a) G e he fp fz.
Proof.
  intros H a G e he fp fz []. constructor; auto.
  - eapply envR_agree; eauto; intros l I; apply nth_error_app1; eauto. eapply envR_bound; eauto.
  - intros l R. rewrite app_length. specialize (g_in0 l R). lia.
Qed.

Lemma envR_drop : forall d H G e he fp fz, warm d -> envR H (d ++ G) e he fp fz ->
  exists fp1 fp2, fp = fp1 ++ fp2 /\ envR H G (skipn (List.length d) e) (skipn (List.length d) he) fp2 fz.
Proof.
  induction d as [|[x k] d IH]; intros H G e he fp fz W E; cbn [app List.length skipn] in *.
  - exists [], fp. auto.
  - inversion W as [|? ? W1 W2]; subst. cbn [snd] in *. inversion E; subst; try congruence;
      match goal with K : MemSim.envR _ _ _ (d ++ G) _ _ _ _ |- _ => destruct (IH _ _ _ _ _ _ W2 K) as (a & b & -> & E') end.
    + exists a, b. auto.
    + exists (fp0 ++ a), b. rewrite app_assoc. auto.
Qed.

Lemma good_drop : forall d H G e he fp fz e0 he0, warm d -> good H (d ++ G) e he fp fz ->
  List.length e0 = List.length G -> List.length he0 = List.length G ->
  exists fp2, good H G (leave e0 e) (hleave he0 he) fp2 fz /\ (forall l, In l fp2 -> In l fp).
Proof.
  intros d H G e he fp fz e0 he0 W [] L1 L2. destruct (envR_drop _ _ _ _ _ _ _ W g_env0) as (a & b & -> & E).
  destruct (envR_length _ _ _ _ _ _ _ _ g_env0) as [LA LB]. rewrite app_length in LB.
  exists b. split; [|intros l I; apply in_or_app; auto]. constructor; auto.
  - unfold leave, hleave. replace (List.length e - List.length e0)%nat with (List.length d) by lia.
    replace (List.length he - List.length he0)%nat with (List.length d) by lia. exact E.
  - apply nodup_app in g_nd0. tauto.
  - intros l I. apply g_ro0, in_or_app. auto.
Qed.

(** Set aside what variables own. *)
Lemma freeze_env : forall H G e he fp fz, envR H G e he fp fz ->
  exists fz', envR H (freeze G) e he [] fz' /\
    forall H' e' he' fp', agree (fun l => In l fp) H H' -> envR H' (freeze G) e' he' fp' fz' ->
      fp' = [] /\ envR H' G e' he' fp fz /\
      (forall x, isOwner G x = true -> alookup x e' = alookup x e /\ alookup x he' = alookup x he).
Proof.
  intros H G e he fp fz E. induction E; cbn [freeze map fst snd freezeK].
  - exists []. split; [constructor|]. intros H' e' he' fp' A E. inversion E; subst. auto.
  - destruct IHE as (fz' & F & T). exists fz'. split; [apply envR_shr; auto|]. intros H' e' he' fp' A E'. inversion E'; subst; [|discriminate].
    match goal with K : MemSim.envR _ _ H' (map _ G) _ _ _ _ |- _ => destruct (T _ _ _ _ A K) as (-> & B & C) end. split; auto. split; [apply envR_shr; auto|].
    intros y. unfold isOwner. cbn [alookup]. destruct (String.eqb y x); [discriminate|]. apply C.
  - destruct IHE as (fz' & F & T). exists ((v, hv) :: fz'). replace (freezeK k) with KFrozen by (destruct k; auto; discriminate).
    split; [apply envR_frz; auto|]. intros H' e' he' fp' A E'. inversion E'; subst; [discriminate|].
    assert (A' : agree (fun l => In l fp) H H') by (intros l I; apply A, in_or_app; auto).
    match goal with K : MemSim.envR _ _ H' (map _ G) _ _ _ _ |- _ => destruct (T _ _ _ _ A' K) as (-> & B & C) end.
    split; auto. split; [apply envR_own; auto; eapply own_agree; eauto; intros l I; apply A, in_or_app; auto|].
    intros y. unfold isOwner. cbn [alookup]. destruct (String.eqb y x); [auto|apply C].
  - destruct IHE as (fz' & F & T). exists ((v, hv) :: fz'). split; [apply envR_frz; auto|]. intros H' e' he' fp' A E'. inversion E'; subst; [discriminate|].
    match goal with K : MemSim.envR _ _ H' (map _ G) _ _ _ _ |- _ => destruct (T _ _ _ _ A K) as (-> & B & C) end. split; auto. split; [apply envR_frz; auto|].
    intros y. unfold isOwner. cbn [alookup]. destruct (String.eqb y x); [discriminate|]. apply C.
Qed.
End Good.

(* ---------- right sides ---------- *)

Lemma owns_repeat : forall H v hv k, own H v hv [] -> owns H (repeat v k) (repeat hv k) [].
Proof. intros H v hv k O. induction k as [|k IH]; cbn [repeat]; [constructor|]. exact (owns_cons H v hv [] _ _ [] O IH). Qed.
Lemma zero_own : forall H t, own H (zero t) (hzero t) [].
Proof. intros H t. induction t; cbn [zero hzero]; try (constructor; apply old_nil); try (constructor; fail). constructor. now apply owns_repeat. Qed.
Lemma zeros_own : forall H fs, owns H (map snd (zeros fs)) (map snd (hzeros fs)) [].
Proof.
  intros H. induction fs as [|[f t] fs IH]; cbn [zeros hzeros map fst snd]; [constructor|].
  exact (owns_cons H _ _ [] _ _ [] (zero_own H t) IH).
Qed.
Lemma zeros_names : forall fs, map fst (zeros fs) = map fst (hzeros fs).
Proof. induction fs as [|[f t] fs IH]; cbn [zeros hzeros map fst]; auto. f_equal. exact IH. Qed.
Lemma hsize_8 : forall t, hsize 8 t = gsize t.
Proof. induction t; cbn [hsize gsize]; auto. now rewrite IHt. Qed.

Section Run.
Variable ro : loc -> Prop.
Variable self : hval.
Variable pl : platform.
Hypothesis wide : word pl = 8.
Variable types : amap (list (string * gtype)).
Notation envR := (envR ro self).
Notation good := (good ro self).
Notation heval := (heval pl types).
Notation hstore := (hstore pl types).

Lemma scalar_sim : forall H G e he fp fz a v, envR H G e he fp fz -> scalarE G a = true -> eval types e a = Ok v ->
  exists hv, heval H he a = Ok (hv, H) /\ own H v hv [].
Proof.
  intros H G e he fp fz a v E S EV. unfold scalarE in S. apply andb_true_iff in S as [PU S].
  destruct (eval_sim _ _ _ wide _ _ _ _ _ _ _ E _ _ PU EV) as (hv & HV & B). exists hv. split; auto.
  assert (Z : (exists z, v = VInt z) \/ (exists s, v = VStr s)).
  { destruct a; try discriminate; cbn [eval] in EV.
    - destruct a1; try discriminate. cbn [eval] in EV. destruct (alookup x e) as [w|] eqn:L; [|discriminate]. cbn [bind] in EV.
      apply shr_is in S. destruct (lookup_shr _ _ _ _ _ _ _ _ E _ _ S L) as (hw & _ & SW).
      destruct (eval types e a2) as [k| | |]; try discriminate. cbn [bind] in EV.
      destruct w; try (destruct k; discriminate); destruct k; try discriminate; [|inversion SW].
      destruct (nthZ b z); [|discriminate]. inversion EV. eauto.
    - destruct o; try discriminate; destruct (eval types e a1) as [w1| | |]; try discriminate; cbn [bind] in EV;
        destruct (eval types e a2) as [w2| | |]; try discriminate; cbn [bind] in EV; destruct w1; try discriminate; destruct w2; try discriminate;
        cbn [evalBin] in EV; inversion EV; eauto.
    - destruct (eval types e a) as [w| | |]; try discriminate. cbn [bind] in EV. destruct w; try discriminate.
      destruct ((bits =? 16) || (bits =? 32) || (bits =? 64)); [|discriminate]. destruct (blen b <? bits / 8); [discriminate|]. inversion EV. eauto.
    - destruct (eval types e a) as [w| | |]; try discriminate. cbn [bind] in EV. destruct w; try discriminate. inversion EV. eauto. }
  destruct Z as [[z ->]|[s ->]].
  - apply brw_int in B. subst. constructor.
  - destruct B as [[fp0 O]|O]; inversion O; subst; constructor.
Qed.

Lemma shr_sim : forall H G e he fp fz a v, envR H G e he fp fz -> shrE G a = true -> eval types e a = Ok v ->
  exists hv d, heval H he a = Ok (hv, H ++ d) /\ shr ro (H ++ d) v hv /\ (pureE G a = true -> d = []).
Proof.
  intros H G e he fp fz a v E S EV.
  assert (Same : pureE G a = true -> (forall hv, brw ro H v hv -> shr ro H v hv) -> exists hv d, heval H he a = Ok (hv, H ++ d) /\ shr ro (H ++ d) v hv /\ (pureE G a = true -> d = [])).
  { intros PU K. destruct (eval_sim _ _ _ wide _ _ _ _ _ _ _ E _ _ PU EV) as (hv & HV & B). exists hv, []. rewrite app_nil_r. auto. }
  destruct a; try discriminate; cbn [shrE] in S.
  - apply shr_is in S. cbn [eval] in EV. destruct (alookup x e) as [w|] eqn:L; [|discriminate]. inversion EV; subst.
    destruct (lookup_shr _ _ _ _ _ _ _ _ E _ _ S L) as (hw & LH & SW). exists hw, []. cbn [GoMem.heval]. rewrite LH, app_nil_r. auto.
  - apply Same; auto. intros hv B.
    assert (Z : exists b, v = VBytes b).
    { cbn [eval] in EV. destruct (eval types e a1) as [w1| | |]; try discriminate; cbn [bind] in EV.
      destruct (eval types e a2) as [w2| | |]; try discriminate; cbn [bind] in EV. destruct w1; try discriminate; destruct w2; try discriminate.
      destruct ((z <? 0) || (blen b <? z)); [discriminate|]. inversion EV. eauto. }
    destruct Z as [b ->]. now apply brw_bytes.
  - apply Same; auto. intros hv B.
    assert (Z : exists b, v = VBytes b).
    { cbn [eval] in EV. destruct (eval types e a1) as [w1| | |]; try discriminate; cbn [bind] in EV.
      destruct (eval types e a2) as [w2| | |]; try discriminate; cbn [bind] in EV. destruct w1; try discriminate; destruct w2; try discriminate.
      destruct ((z <? 0) || (blen b <? z)); [discriminate|]. inversion EV. eauto. }
    destruct Z as [b ->]. now apply brw_bytes.
  - apply Same; auto. intros hv B.
    assert (Z : exists z, v = VInt z).
    { cbn [eval] in EV. destruct (eval types e a) as [w1| | |]; try discriminate; cbn [bind] in EV. destruct w1; try discriminate. inversion EV. eauto. }
    destruct Z as [b ->]. apply brw_int in B. subst. constructor.
  - cbn [eval] in EV. inversion EV; subst. exists (HSlice (List.length H) 0 0 0), [OArray []]. split; [reflexivity|]. split; [|discriminate].
    constructor; auto.
  - cbn [eval] in EV. inversion EV; subst. exists HNil, []. rewrite app_nil_r. split; [reflexivity|]. split; [constructor|auto].
  - cbn [eval] in EV. inversion EV; subst. exists (HErr m), []. rewrite app_nil_r. split; [reflexivity|]. split; [constructor|auto].
Qed.

Lemma fresh_sim : forall H G e he fp fz a v, envR H G e he fp fz -> freshE G a = true -> eval types e a = Ok v ->
  exists hv d fp1, heval H he a = Ok (hv, H ++ d) /\ own (H ++ d) v hv fp1 /\ NoDup fp1 /\ (forall l, In l fp1 -> (List.length H <= l)%nat).
Proof.
  intros H G e he fp fz a v E S EV. destruct a; try discriminate; cbn [freshE] in S.
  - cbn [eval] in EV. destruct (eval types e a) as [w| | |] eqn:EN; try discriminate. cbn [bind] in EV. destruct w; try discriminate.
    destruct (eval_sim _ _ _ wide _ _ _ _ _ _ _ E _ _ S EN) as (hv & HV & B). apply brw_int in B. subst hv.
    destruct ((z <? 0) || (maxAlloc <? z * gsize t)) eqn:C; [discriminate|]. inversion EV; subst.
    exists (HSlice (List.length H) 0 (Z.to_nat z) (Z.to_nat z)), [OArray (repeat (hzero t) (Z.to_nat z))], [List.length H].
    cbn [GoMem.heval]. rewrite HV. cbn [bind]. rewrite wide, hsize_8. change (hmax 8) with maxAlloc. rewrite C. split; [reflexivity|]. split.
    + apply own_slice with (l := repeat (hzero t) (Z.to_nat z)); auto.
      * rewrite nth_error_app2 by lia. now rewrite Nat.sub_diag.
      * rewrite repeat_length. lia.
      * cbn [skipn]. rewrite firstn_all2 by (rewrite repeat_length; lia). apply owns_repeat, zero_own.
    + split; [repeat constructor; intros []|]. intros l [<-|[]]. lia.
  - cbn [eval] in EV. destruct (alookup n types) as [fs|] eqn:L; [|discriminate]. inversion EV; subst.
    exists (HPtr (List.length H)), [OStruct n (hzeros fs)], [List.length H]. cbn [GoMem.heval]. rewrite L. split; [reflexivity|]. split.
    + apply own_struct with (hfs := hzeros fs).
      * rewrite nth_error_app2 by lia. now rewrite Nat.sub_diag.
      * apply zeros_names.
      * apply zeros_own.
    + split; [repeat constructor; intros []|]. intros l [<-|[]]. lia.
Qed.

Lemma store_eval : forall l e v e1, store types e l v = Ok e1 -> exists v0, eval types e (lexpr l) = Ok v0.
Proof.
  induction l; intros e v e1 S; cbn [store lexpr eval] in *.
  - destruct (alookup x e); [eauto|discriminate].
  - destruct (eval types e (lexpr l)) as [w| | |]; try discriminate. cbn [bind] in *. destruct w; try discriminate.
    destruct (alookup f fs); [eauto|discriminate].
  - destruct (eval types e (lexpr l)) as [w| | |]; try discriminate. cbn [bind] in *.
    destruct (eval types e i) as [k| | |]; try discriminate. cbn [bind] in *. destruct w; try (destruct k; discriminate); destruct k; try discriminate.
    destruct (nthZ l0 z); [eauto|discriminate].
Qed.

Lemma store_read : forall G l, okL G l = true -> forall e v e1, store types e l v = Ok e1 ->
  eval types e1 (lexpr l) = Ok v /\ exists r u, isOwner G r = true /\ e1 = assign r u e.
Proof.
  intros G. induction l; intros OL e v e1 S; cbn [okL] in OL; cbn [store lexpr eval] in *.
  - destruct (alookup x e) eqn:L; [|discriminate]. inversion S; subst. split; [now rewrite (alookup_assign_same _ _ _ _ L)|eauto].
  - destruct (eval types e (lexpr l)) as [w| | |]; try discriminate. cbn [bind] in *. destruct w; try discriminate.
    destruct (alookup f fs) eqn:L; [|discriminate]. destruct (IHl OL _ _ _ S) as [E R]. rewrite E. cbn [bind].
    rewrite (alookup_assign_same _ _ _ _ L). auto.
  - destruct i; try discriminate. apply andb_true_iff in OL as [OL _]. apply andb_true_iff in OL as [OL IS].
    destruct (eval types e (lexpr l)) as [w| | |]; try discriminate. cbn [bind eval] in *.
    destruct (alookup x e) as [k|] eqn:LX; try discriminate. cbn [bind] in *. destruct w; try (destruct k; discriminate); destruct k; try discriminate.
    destruct (nthZ l0 z) eqn:N; [|discriminate]. destruct (IHl OL _ _ _ S) as [E (r & u & R & ->)]. split; eauto.
    rewrite E. cbn [bind]. rewrite alookup_assign_other, LX.
    + cbn [bind]. unfold nthZ in *. destruct (z <? 0); [discriminate|]. now rewrite (GenSim.updN_nth _ _ _ _ N).
    + intros ->. unfold isOwner, isShr in *. destruct (alookup r G) as [[]|]; discriminate.
Qed.

(** Assign something fresh to a place. *)
Lemma set_path : forall H d G e he fp fz l v hv fp1 e1, good H G e he fp fz -> okL G l = true -> selfVar G l = false ->
  own (H ++ d) v hv fp1 -> NoDup fp1 -> (forall l, In l fp1 -> (List.length H <= l)%nat) -> store types e l v = Ok e1 ->
  exists H2 he1 fp', hstore (H ++ d) he l hv = Ok (H2, he1) /\ good H2 G e1 he1 fp' fz /\ ext H fp H2 fp'.
Proof.
  intros H d G e he fp fz l v hv fp1 e1 GD OL NS O ND1 FR S. destruct GD as [ER ND RO IN].
  destruct (store_eval _ _ _ _ S) as (v0 & EV).
  destruct (path ro self pl types G l OL _ _ _ _ _ _ ER ND RO EV) as (hv0 & fp0 & rest & O0 & P & _ & K).
  assert (BD : forall l, In l fp -> (l < List.length H)%nat) by (apply (envR_bound _ _ _ _ _ _ _ _ ER)).
  assert (BR : forall l, In l rest -> (l < List.length H)%nat) by (intros x I; apply BD; rewrite P; apply in_or_app; auto).
  pose proof (Permutation_NoDup P ND) as ND'. destruct (nodup_app _ _ ND') as (_ & NDr & _).
  destruct (K (H ++ d) v hv fp1 e1) as (H2 & he1 & fp' & S1 & E1 & P1 & AG & LN & _); auto.
  { intros x I. apply nth_error_app1. auto. }
  { intros x I. apply nth_error_app1. auto. }
  { intros x I J. specialize (FR _ I). specialize (BR _ J). lia. }
  { congruence. }
  exists H2, he1, fp'. split; auto. split.
  - constructor; auto.
    + apply (Permutation_NoDup (Permutation_sym P1)). clear - ND1 NDr FR BR. induction fp1 as [|x fp1 IH]; cbn [app]; auto. inversion ND1; subst.
      constructor; [|apply IH; auto; intros y I; apply FR; now right]. intros I. apply in_app_or in I as [I|I]; [contradiction|].
      specialize (FR x (or_introl eq_refl)). specialize (BR _ I). lia.
    + intros x I R. apply (perm_in _ _ _ P1) in I. apply in_app_or in I as [I|I].
      * specialize (FR _ I). specialize (IN _ R). lia.
      * apply (RO x); auto. rewrite P. apply in_or_app. auto.
    + intros x R. rewrite LN, app_length. specialize (IN _ R). lia.
  - split; [rewrite LN, app_length; lia|]. split.
    + intros x L N. rewrite AG; [now apply nth_error_app1|]. intros I. apply N. rewrite P. apply in_or_app. auto.
    + intros x I. apply (perm_in _ _ _ P1) in I. apply in_app_or in I as [I|I]; [right; auto|]. left. rewrite P. apply in_or_app. auto.
Qed.
End Run.
End Old.
