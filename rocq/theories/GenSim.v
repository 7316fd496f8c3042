(** The generated Go code does what the decoder of GenDecode.v does. *)
From Coq Require Import ZArith String List Bool Lia.
From Coq Require Import ZifyBool ZifyNat.
From Verif Require Import Base Ast IntervalsModel InspectModel InspectSpec InspectProofs GoLang GenModel GenDecode GenCheck.
Import ListNotations.
Open Scope string_scope.
Open Scope list_scope.
Open Scope Z_scope.
Ltac Zify.zify_post_hook ::= Z.div_mod_to_equations.

(* ---------- small facts ---------- *)

Lemma memb_in : forall x l, memb x l = true <-> In x l.
Proof.
  intros. unfold memb. rewrite existsb_exists. split.
  - intros (y & I & E). apply String.eqb_eq in E. now subst.
  - intros I. exists x. split; auto. apply String.eqb_refl.
Qed.
Lemma memb_notin : forall x l, memb x l = false <-> ~ In x l.
Proof. intros. rewrite <- memb_in. destruct (memb x l); split; congruence. Qed.
Lemma nodupb_NoDup : forall l, nodupb l = true <-> NoDup l.
Proof.
  induction l as [|x l IH]; cbn [nodupb]; [split; auto using NoDup_nil|].
  rewrite andb_true_iff, negb_true_iff, memb_notin, IH. split.
  - intros [A B]. now constructor.
  - intros H. now inversion H.
Qed.
Lemma disjointb_spec : forall a b, disjointb a b = true <-> (forall x, In x a -> ~ In x b).
Proof.
  intros. unfold disjointb. rewrite forallb_forall. split; intros H x I.
  - apply memb_notin, negb_true_iff, H, I.
  - apply negb_true_iff, memb_notin, H, I.
Qed.

Lemma assign_len : forall x v e, List.length (assign x v e) = List.length e.
Proof. induction e as [|[y w] e IH]; cbn; auto. destruct (String.eqb x y); cbn; auto. Qed.
Lemma alookup_assign : forall x y v (e : env),
  alookup y (assign x v e) =
  if String.eqb y x then (match alookup x e with Some _ => Some v | None => None end) else alookup y e.
Proof.
  induction e as [|[z w] e IH]; cbn [assign alookup].
  - destruct (String.eqb y x); auto.
  - destruct (String.eqb_spec x z) as [->|N]; cbn [alookup].
    + destruct (String.eqb_spec y z); auto.
    + rewrite IH. destruct (String.eqb_spec y z) as [->|]; auto.
      destruct (String.eqb_spec z x); auto. congruence.
Qed.
Lemma alookup_assign_same : forall x v w (e : env), alookup x e = Some w -> alookup x (assign x v e) = Some v.
Proof. intros. rewrite alookup_assign, String.eqb_refl, H. reflexivity. Qed.
Lemma alookup_assign_other : forall x y v (e : env), y <> x -> alookup y (assign x v e) = alookup y e.
Proof. intros. rewrite alookup_assign. destruct (String.eqb_spec y x); congruence. Qed.
Lemma assign_assign : forall x v w e, assign x v (assign x w e) = assign x v e.
Proof.
  induction e as [|[y z] e IH]; cbn [assign]; auto.
  destruct (String.eqb_spec x y) as [->|N]; cbn [assign].
  - now rewrite String.eqb_refl.
  - destruct (String.eqb_spec x y); [congruence|]. now rewrite IH.
Qed.
Lemma assign_comm : forall x y v w e, x <> y -> assign x v (assign y w e) = assign y w (assign x v e).
Proof.
  induction e as [|[z u] e IH]; intros N; cbn [assign]; auto.
  destruct (String.eqb_spec y z) as [->|Ny]; destruct (String.eqb_spec x z) as [->|Nx]; cbn [assign];
    try congruence.
  - destruct (String.eqb_spec x z); [congruence|]. now rewrite String.eqb_refl.
  - rewrite String.eqb_refl. destruct (String.eqb_spec y z); [congruence|]. reflexivity.
  - destruct (String.eqb_spec y z); [congruence|]. destruct (String.eqb_spec x z); [congruence|].
    now rewrite IH.
Qed.
Lemma assign_push : forall x y v w e, x <> y -> assign x v ((y, w) :: e) = (y, w) :: assign x v e.
Proof. intros. cbn [assign]. destruct (String.eqb_spec x y); congruence. Qed.
Lemma assign_same : forall x v e, alookup x e = Some v -> assign x v e = e.
Proof.
  induction e as [|[y w] e IH]; cbn [assign alookup]; auto.
  destruct (String.eqb_spec x y) as [->|]; intros H; [congruence|]. now rewrite IH.
Qed.
Lemma assign_app_notin : forall x v pre e, ~ In x (map fst pre) -> assign x v (pre ++ e) = pre ++ assign x v e.
Proof.
  induction pre as [|[y w] pre IH]; cbn [app map fst In]; auto. intros e N.
  rewrite assign_push by (intros ->; tauto). now rewrite IH by tauto.
Qed.
Lemma alookup_app_notin : forall {A} x (pre e : amap A), ~ In x (map fst pre) -> alookup x (pre ++ e) = alookup x e.
Proof.
  induction pre as [|[y w] pre IH]; cbn [app map fst In alookup]; auto. intros e N.
  destruct (String.eqb_spec x y); [subst; tauto|]. apply IH. tauto.
Qed.

Lemma leave_app : forall pre e0 e, List.length e = List.length e0 -> leave e0 (pre ++ e) = e.
Proof.
  intros. unfold leave. rewrite app_length, H.
  replace (List.length pre + List.length e0 - List.length e0)%nat with (List.length pre) by lia.
  rewrite skipn_app, skipn_all, Nat.sub_diag. reflexivity.
Qed.
Lemma leave_same : forall e0 e, List.length e = List.length e0 -> leave e0 e = e.
Proof. intros. apply (leave_app []). auto. Qed.
Lemma leave_cons : forall x v e0 e, List.length e = List.length e0 -> leave e0 ((x, v) :: e) = e.
Proof. intros. apply (leave_app [(x, v)]). auto. Qed.

Lemma nthZ_some : forall {A} (l : list A) i, 0 <= i < blen l -> exists a, nthZ l i = Some a.
Proof.
  intros A l i H. unfold nthZ, blen in *. replace (i <? 0) with false by lia.
  destruct (nth_error l (Z.to_nat i)) eqn:E; eauto. apply nth_error_None in E. lia.
Qed.
Lemma updN_len : forall {A} (l : list A) i v, List.length (updN l i v) = List.length l.
Proof. induction l; destruct i; cbn; auto. Qed.
Lemma updN_nth : forall {A} (l : list A) i v a, nth_error l i = Some a -> nth_error (updN l i v) i = Some v.
Proof. induction l; destruct i; cbn; intros; try discriminate; eauto. Qed.
Lemma updN_updN : forall {A} (l : list A) i v w, updN (updN l i v) i w = updN l i w.
Proof. induction l; destruct i; cbn; intros; auto. now rewrite IHl. Qed.

Section Fix.
Variable types : amap (list (string * gtype)).
Variable call : callfun.
Variable n : nat.
Notation eval := (eval types).
Notation store := (store types).
Notation exec := (exec types call n).
Notation execs := (execs types call n).

(* ---------- unfolding the interpreter ---------- *)

Definition block (b : list stmt) (e : env) : env * sres :=
  let '(e1, r) := execs b e in (leave e e1, r).
Lemma exec_block : forall b e, exec (SBlock b) e = block b e.
Proof. reflexivity. Qed.
Lemma exec_if : forall c b e, exec (SIf c b) e =
  lift e (eval e c) (fun v => match v with VBool true => block b e | VBool false => (e, SNext)
                              | _ => (e, SPanic "ill-typed") end).
Proof. reflexivity. Qed.

Definition forLoop (x : string) (bound : expr) (b : list stmt) := fix loop (m : nat) (e : env) {struct m} : env * sres :=
  lift e (eval e (EBin BLt (EVar x) bound)) (fun v =>
  match v with
  | VBool false => (e, SNext)
  | VBool true =>
      match m with
      | O => (e, SFuel)
      | S m' =>
          let '(e1, r) := block b e in
          match r with
          | SNext => lift e1 (eval e1 (EBin BAdd (EVar x) (EInt 1))) (fun w => loop m' (assign x w e1))
          | _ => (e1, r)
          end
      end
  | _ => (e, SPanic "ill-typed")
  end).
Lemma exec_for : forall x bound b e, exec (SForLt x bound b) e =
  let '(e1, r) := forLoop x bound b n ((x, VInt 0) :: e) in (leave e e1, r).
Proof. reflexivity. Qed.

Definition whileLoop (c : expr) (b : list stmt) := fix loop (m : nat) (e : env) {struct m} : env * sres :=
  lift e (eval e c) (fun v =>
  match v with
  | VBool false => (e, SNext)
  | VBool true =>
      match m with
      | O => (e, SFuel)
      | S m' =>
          let '(e1, r) := block b e in
          match r with SNext => loop m' e1 | _ => (e1, r) end
      end
  | _ => (e, SPanic "ill-typed")
  end).
Lemma exec_while : forall c b e, exec (SWhile c b) e = whileLoop c b n e.
Proof. reflexivity. Qed.

Definition swDefault (e : env) := fix default (cs : list (option expr * list stmt)) : env * sres :=
  match cs with
  | [] => (e, SNext)
  | (None, b) :: _ => block b e
  | (Some _, _) :: cs' => default cs'
  end.
Definition swPick (e : env) (all : list (option expr * list stmt)) := fix pick (cs0 : list (option expr * list stmt)) : env * sres :=
  match cs0 with
  | [] => swDefault e all
  | (None, _) :: cs' => pick cs'
  | (Some c, b) :: cs' =>
      lift e (eval e c) (fun v =>
      match v with
      | VBool true => block b e
      | VBool false => pick cs'
      | _ => (e, SPanic "ill-typed")
      end)
  end.
Lemma exec_switch : forall cs e, exec (SSwitch cs) e = swPick e cs cs.
Proof. reflexivity. Qed.

Lemma execs_cons : forall s ss e, execs (s :: ss) e =
  let '(e1, r) := exec s e in match r with SNext => execs ss e1 | _ => (e1, r) end.
Proof. reflexivity. Qed.
Lemma execs_app : forall a b e, execs (a ++ b) e =
  let '(e1, r) := execs a e in match r with SNext => execs b e1 | _ => (e1, r) end.
Proof.
  induction a as [|s a IH]; intros b e; [reflexivity|].
  cbn [app]. rewrite !execs_cons. destruct (exec s e) as [e1 []]; auto.
Qed.
Lemma execs_next : forall a b e e1, execs a e = (e1, SNext) -> execs (a ++ b) e = execs b e1.
Proof. intros. rewrite execs_app, H. reflexivity. Qed.
Lemma execs_stop : forall a b e e1 r, execs a e = (e1, r) -> r <> SNext -> execs (a ++ b) e = (e1, r).
Proof. intros. rewrite execs_app, H. destruct r; congruence. Qed.

(* ---------- places ---------- *)

Record place (L : lval) (pv : list string) (root : string) : Type := mkPlace {
  pget : env -> option value;
  pset : env -> value -> env;
  p_eval : forall e v, pget e = Some v -> eval e (lexpr L) = Ok v;
  p_store : forall e w v, pget e = Some w -> store e L v = Ok (pset e v);
  p_get_set : forall e w v, pget e = Some w -> pget (pset e v) = Some v;
  p_set_set : forall e w v v', pget e = Some w -> pset (pset e v) v' = pset e v';
  p_len : forall e v, List.length (pset e v) = List.length e;
  p_push_get : forall y w e, ~ In y pv -> pget ((y, w) :: e) = pget e;
  p_push_set : forall y w e v, ~ In y pv -> pset ((y, w) :: e) v = (y, w) :: pset e v;
  p_assign_get : forall y w e, ~ In y pv -> pget (assign y w e) = pget e;
  p_assign_set : forall y w e v, ~ In y pv -> pset (assign y w e) v = assign y w (pset e v);
  p_other : forall y e v, y <> root -> alookup y (pset e v) = alookup y e;
  p_root : In root pv }.
Arguments pget {L pv root} _.
Arguments pset {L pv root} _.

(** A variable. *)
Definition varPlace (x : string) : place (LVar x) [x] x.
Proof.
  refine (mkPlace (LVar x) [x] x (fun e => alookup x e) (fun e v => assign x v e) _ _ _ _ _ _ _ _ _ _ _).
  - intros e v H. cbn. now rewrite H.
  - intros e w v H. cbn. now rewrite H.
  - intros. eapply alookup_assign_same; eauto.
  - intros. apply assign_assign.
  - intros. apply assign_len.
  - intros y w e N. cbn [alookup]. destruct (String.eqb_spec x y); auto. subst. cbn in N. tauto.
  - intros y w e v N. apply assign_push. intros ->. cbn in N. tauto.
  - intros y w e N. apply alookup_assign_other. intros ->. cbn in N. tauto.
  - intros y w e v N. apply assign_comm. intros ->. cbn in N. tauto.
  - intros. now apply alookup_assign_other.
  - cbn. auto.
Defined.

(** A field of a struct variable. *)
Definition fieldGet (x f : string) (e : env) : option value :=
  match alookup x e with Some (VStruct _ fs) => alookup f fs | _ => None end.
Definition fieldSet (x f : string) (e : env) (v : value) : env :=
  match alookup x e with Some (VStruct t fs) => assign x (VStruct t (assign f v fs)) e | _ => e end.
Definition fieldPlace (x f : string) : place (LField (LVar x) f) [x] x.
Proof.
  refine (mkPlace (LField (LVar x) f) [x] x (fieldGet x f) (fieldSet x f) _ _ _ _ _ _ _ _ _ _ _);
    unfold fieldGet, fieldSet.
  - intros e v H. cbn. destruct (alookup x e) as [[| | | |t fs| | |]|]; try discriminate. cbn. now rewrite H.
  - intros e w v H. cbn. destruct (alookup x e) as [[| | | |t fs| | |]|] eqn:E; try discriminate. cbn.
    now rewrite H.
  - intros e w v H. destruct (alookup x e) as [[| | | |t fs| | |]|] eqn:E; try discriminate.
    rewrite (alookup_assign_same _ _ _ _ E). eapply alookup_assign_same; eauto.
  - intros e w v v' H. destruct (alookup x e) as [[| | | |t fs| | |]|] eqn:E; try discriminate.
    rewrite (alookup_assign_same _ _ _ _ E). now rewrite !assign_assign.
  - intros e v. destruct (alookup x e) as [[| | | |t fs| | |]|]; auto. apply assign_len.
  - intros y w e N. cbn [alookup]. destruct (String.eqb_spec x y); auto. subst. cbn in N. tauto.
  - intros y w e v N. cbn [alookup]. destruct (String.eqb_spec x y); [subst; cbn in N; tauto|].
    destruct (alookup x e) as [[| | | |t fs| | |]|]; auto. now apply assign_push.
  - intros y w e N. rewrite alookup_assign_other; auto. intros ->. cbn in N. tauto.
  - intros y w e v N. assert (x <> y) by (intros ->; cbn in N; tauto).
    rewrite alookup_assign_other by auto.
    destruct (alookup x e) as [[| | | |t fs| | |]|]; auto. now apply assign_comm.
  - intros y e v N. destruct (alookup x e) as [[| | | |t fs| | |]|]; auto. now apply alookup_assign_other.
  - cbn. auto.
Defined.

(** Element [idx] of an array in a place. *)
Definition idxGet {L pv root} (P : place L pv root) (e : env) : option value :=
  match pget P e, alookup "idx" e with Some (VList l), Some (VInt z) => nthZ l z | _, _ => None end.
Definition idxSet {L pv root} (P : place L pv root) (e : env) (v : value) : env :=
  match pget P e, alookup "idx" e with
  | Some (VList l), Some (VInt z) => pset P e (VList (updN l (Z.to_nat z) v))
  | _, _ => e end.
Lemma nthZ_upd : forall {A} (l : list A) z v a, nthZ l z = Some a -> nthZ (updN l (Z.to_nat z) v) z = Some v.
Proof. unfold nthZ. intros. destruct (z <? 0); [discriminate|]. eapply updN_nth; eauto. Qed.

Definition idxPlace {L pv root} (P : place L pv root) (HI : ~ In "idx" pv) :
  place (LIdx L (EVar "idx")) ("idx" :: pv) root.
Proof.
  assert (RI : "idx" <> root) by (intros E; apply HI; rewrite E; apply (p_root _ _ _ P)).
  refine (mkPlace (LIdx L (EVar "idx")) ("idx" :: pv) root (idxGet P) (idxSet P) _ _ _ _ _ _ _ _ _ _ _);
    unfold idxGet, idxSet.
  - intros e v H. destruct (pget P e) as [[| | |l| | | |]|] eqn:G; try discriminate.
    cbn [lexpr GoLang.eval]. rewrite (p_eval _ _ _ P _ _ G). cbn [bind].
    destruct (alookup "idx" e) as [[z| | | | | | |]|]; try discriminate. cbn [bind]. now rewrite H.
  - intros e w v H. destruct (pget P e) as [[| | |l| | | |]|] eqn:G; try discriminate.
    cbn [GoLang.store]. rewrite (p_eval _ _ _ P _ _ G). cbn [bind].
    cbn [GoLang.eval]. destruct (alookup "idx" e) as [[z| | | | | | |]|]; try discriminate. cbn [bind]. rewrite H.
    eapply p_store; eauto.
  - intros e w v H. destruct (pget P e) as [[| | |l| | | |]|] eqn:G; try discriminate.
    destruct (alookup "idx" e) as [[z| | | | | | |]|] eqn:E; try discriminate.
    rewrite (p_get_set _ _ _ P _ _ _ G), (p_other _ _ _ P), E by auto. eapply nthZ_upd; eauto.
  - intros e w v v' H. destruct (pget P e) as [[| | |l| | | |]|] eqn:G; try discriminate.
    destruct (alookup "idx" e) as [[z| | | | | | |]|] eqn:E; try discriminate.
    rewrite (p_get_set _ _ _ P _ _ _ G), (p_other _ _ _ P), E by auto.
    rewrite (p_set_set _ _ _ P _ _ _ _ G). now rewrite updN_updN.
  - intros e v. destruct (pget P e) as [[| | |l| | | |]|]; auto.
    destruct (alookup "idx" e) as [[z| | | | | | |]|]; auto. apply p_len.
  - intros y w e N. rewrite (p_push_get _ _ _ P) by (cbn in N; tauto). cbn [alookup].
    destruct (String.eqb_spec "idx" y); auto. subst. cbn in N. tauto.
  - intros y w e v N. rewrite (p_push_get _ _ _ P) by (cbn in N; tauto). cbn [alookup].
    destruct (String.eqb_spec "idx" y); [subst; cbn in N; tauto|].
    destruct (pget P e) as [[| | |l| | | |]|]; auto.
    destruct (alookup "idx" e) as [[z| | | | | | |]|]; auto. apply p_push_set. cbn in N; tauto.
  - intros y w e N. rewrite (p_assign_get _ _ _ P) by (cbn in N; tauto).
    rewrite alookup_assign_other; auto. intros <-. cbn in N. tauto.
  - intros y w e v N. rewrite (p_assign_get _ _ _ P) by (cbn in N; tauto).
    rewrite alookup_assign_other by (intros <-; cbn in N; tauto).
    destruct (pget P e) as [[| | |l| | | |]|]; auto.
    destruct (alookup "idx" e) as [[z| | | | | | |]|]; auto. apply p_assign_set. cbn in N; tauto.
  - intros y e v N. destruct (pget P e) as [[| | |l| | | |]|]; auto.
    destruct (alookup "idx" e) as [[z| | | | | | |]|]; auto. now apply p_other.
  - right. apply (p_root _ _ _ P).
Defined.
End Fix.
