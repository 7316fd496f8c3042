(** Programs with the same types, methods and functions, in whatever order they are
    declared, run in the same way. *)
From Coq Require Import ZArith String List Bool.
From Verif Require Import Base GoLang GenSim MemMono.
Import ListNotations.
Open Scope string_scope.
Open Scope list_scope.
Open Scope Z_scope.

Section Same.
Variables types types' : amap (list (string * gtype)).
Hypothesis TS : forall x, alookup x types = alookup x types'.

Lemma eval_same : forall x e, eval types e x = eval types' e x.
Proof.
  induction x; intros e; cbn [eval]; rewrite ?TS; repeat match goal with H : forall e, eval types e ?y = _ |- _ => rewrite !(H e); clear H end; reflexivity.
Qed.
Lemma store_same : forall l e v, store types e l v = store types' e l v.
Proof.
  induction l as [x|l IH f|l IH i]; intros e v; cbn [store]; rewrite ?eval_same; auto.
  - destruct (eval types' e (lexpr l)) as [w| | |]; auto. cbn [bind]. destruct w; auto. destruct (alookup f fs); auto.
  - destruct (eval types' e (lexpr l)) as [w| | |]; auto. cbn [bind]. destruct (eval types' e i) as [k| | |]; auto. cbn [bind]. destruct w, k; auto. destruct (nthZ l0 z); auto.
Qed.
Lemma evals_same : forall l e, mapM (eval types e) l = mapM (eval types' e) l.
Proof. induction l as [|x l IH]; intros e; cbn [mapM]; auto. now rewrite eval_same, IH. Qed.

Variables call call' : callfun.
Hypothesis CS : forall a b c, call a b c = call' a b c.
Variable n : nat.

Lemma lift_same : forall A e (x : outcome A) k k', (forall a, k a = k' a) -> lift e x k = lift e x k'.
Proof. intros A e [a| | |] k k' H; cbn [lift]; auto. Qed.
Lemma execs_same1 : forall ss, Forall (fun s => forall e, exec types call n s e = exec types' call' n s e) ss -> forall e, execs types call n ss e = execs types' call' n ss e.
Proof.
  induction ss as [|s ss IH]; intros F e; [reflexivity|]. inversion F as [|? ? F1 F2]; subst. rewrite !execs_cons, F1. destruct (exec types' call' n s e) as [e1 []]; auto.
Qed.
Lemma block_same1 : forall ss, Forall (fun s => forall e, exec types call n s e = exec types' call' n s e) ss -> forall e, block types call n ss e = block types' call' n ss e.
Proof. intros ss F e. unfold block. now rewrite execs_same1. Qed.

Ltac cond := let v := fresh in intros v; destruct v; auto; try match goal with |- context [if ?b then _ else _] => destruct b end; auto.
Lemma exec_same : forall s e, exec types call n s e = exec types' call' n s e.
Proof.
  induction s as [x a|x t|l a|l1 l2 a b|c b IH|b IH|x bd b IH|c b IH|cs IH|a b|x err o a args|err o a args] using stmt_ind'; intros e.
  - cbn [exec]. now rewrite eval_same.
  - reflexivity.
  - cbn [exec]. rewrite eval_same. apply lift_same. intros v. now rewrite store_same.
  - cbn [exec]. rewrite eval_same. apply lift_same. intros v. rewrite eval_same. apply lift_same. intros w. rewrite store_same. apply lift_same. intros e1. now rewrite store_same.
  - rewrite !exec_if, eval_same. apply lift_same. cond. now apply block_same1.
  - rewrite !exec_block. now apply block_same1.
  - rewrite !exec_for.
    assert (L : forall m e, forLoop types call n x bd b m e = forLoop types' call' n x bd b m e).
    { induction m as [|m IHm]; intros e'; cbn [forLoop]; rewrite eval_same; apply lift_same; cond.
      rewrite block_same1 by auto. destruct (block types' call' n b e') as [e1 []]; auto. rewrite eval_same. apply lift_same. intros w. apply IHm. }
    now rewrite L.
  - rewrite !exec_while. generalize n at 2 4. intros m. revert e. induction m as [|m IHm]; intros e'; cbn [whileLoop]; rewrite eval_same; apply lift_same; cond.
    rewrite block_same1 by auto. destruct (block types' call' n b e') as [e1 []]; auto.
  - rewrite !exec_switch.
    assert (D : forall ds, Forall (fun c => Forall (fun s => forall e, exec types call n s e = exec types' call' n s e) (snd c)) ds -> swDefault types call n e ds = swDefault types' call' n e ds).
    { induction ds as [|[[c|] b] ds IHd]; intros F; cbn [swDefault]; inversion F; subst; auto. apply block_same1; auto. }
    assert (P : forall ds, Forall (fun c => Forall (fun s => forall e, exec types call n s e = exec types' call' n s e) (snd c)) ds -> swPick types call n e cs ds = swPick types' call' n e cs ds).
    { induction ds as [|[[c|] b] ds IHd]; intros F; cbn [swPick]; [now apply D| |]; inversion F; subst; auto. rewrite eval_same. apply lift_same. cond. apply block_same1; auto. }
    now apply P.
  - cbn [exec]. rewrite eval_same. apply lift_same. intros v. rewrite eval_same. reflexivity.
  - cbn [exec]. rewrite eval_same. apply lift_same. intros v. rewrite eval_same. apply lift_same. intros d. rewrite evals_same. apply lift_same. intros vs. rewrite CS.
    destruct (call' v d vs) as [w []]; auto. rewrite store_same. apply lift_same. intros e1. rewrite store_same. apply lift_same. intros e2. now rewrite store_same.
  - cbn [exec]. rewrite eval_same. apply lift_same. intros v. rewrite eval_same. apply lift_same. intros d. rewrite evals_same. apply lift_same. intros vs. rewrite CS.
    destruct (call' v d vs) as [w []]; auto. now rewrite store_same.
Qed.
Lemma execs_same : forall ss e, execs types call n ss e = execs types' call' n ss e.
Proof. intros ss e. apply execs_same1. apply Forall_forall. intros. apply exec_same. Qed.
End Same.

(** The same declarations, found under the same names. *)
Definition sameProgram (p q : program) : Prop :=
  (forall x, alookup x (ptypes p) = alookup x (ptypes q)) /\ (forall x, alookup x (pmethods p) = alookup x (pmethods q)) /\ (forall x, alookup x (pctors p) = alookup x (pctors q)).

Lemma call_same : forall p q, sameProgram p q -> forall n recv d args, callMethod p n recv d args = callMethod q n recv d args.
Proof.
  intros p q (T & M & _). induction n as [|n IH]; intros recv d args; destruct recv; cbn [callMethod]; auto; rewrite M; destruct (alookup ty (pmethods q)) as [f|]; auto.
  rewrite (execs_same (ptypes p) (ptypes q) T (callMethod p n) (callMethod q n) IH). reflexivity.
Qed.
Lemma ctor_same : forall p q, sameProgram p q -> forall n ty d args, callCtor p n ty d args = callCtor q n ty d args.
Proof.
  intros p q S n ty d args. unfold callCtor. pose proof (call_same p q S) as CS. destruct S as (T & M & C). rewrite C. destruct (alookup ty (pctors q)) as [f|]; auto.
  rewrite (execs_same (ptypes p) (ptypes q) T (callMethod p n) (callMethod q n) (CS n)). reflexivity.
Qed.
