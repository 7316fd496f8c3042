(** Proofs that how Go reads a text does not depend on the depth that is allowed for. *)
From Coq Require Import ZArith String Ascii List Bool Lia.
From Verif Require Import Base GoLang GoTypes GoText.
Import ListNotations.
Open Scope string_scope.
Open Scope list_scope.

Definition le {A} (a b : option A) : Prop := forall x, a = Some x -> b = Some x.
Lemma le_refl : forall A (a : option A), le a a.
Proof. intros A a x H. exact H. Qed.
Lemma le_none : forall A (b : option A), le None b.
Proof. intros A b x H. discriminate. Qed.
Ltac mono := lazymatch goal with
  | |- le ?a ?a => apply le_refl
  | |- le (match ?e with _ => _ end) (match ?e with _ => _ end) => destruct e; mono
  | |- le (match ?e with _ => _ end) (match ?f with _ => _ end) =>
      let H := fresh in assert (H : le e f) by mono; destruct e; [rewrite (H _ eq_refl); clear H; mono|apply le_none]
  | |- le None _ => apply le_none
  | |- _ => solve [auto]
  end.

Definition exprsUp (n m : nat) : Prop :=
  (forall a ts, le (pBin n a ts) (pBin m a ts)) /\ (forall a x ts, le (pMore n a x ts) (pMore m a x ts)) /\
  (forall ts, le (pUn n ts) (pUn m ts)) /\ (forall ts, le (pOperand n ts) (pOperand m ts)) /\
  (forall x ts, le (pPost n x ts) (pPost m x ts)) /\ (forall ts, le (pArgs n ts) (pArgs m ts)) /\
  (forall ts, le (pElems n ts) (pElems m ts)) /\ (forall ts, le (pElem n ts) (pElem m ts)) /\
  (forall ts, le (pType n ts) (pType m ts)) /\ (forall ts, le (pFields n ts) (pFields m ts)).
Lemma exprs_up : forall n m, (n <= m)%nat -> exprsUp n m.
Proof.
  induction n as [|n IH]; intros m L; [repeat split; intros; apply le_none|].
  destruct m as [|m]; [lia|]. destruct (IH m ltac:(lia)) as (I1 & I2 & I3 & I4 & I5 & I6 & I7 & I8 & I9 & I10).
  unfold exprsUp. repeat (match goal with |- _ /\ _ => split end); intros; cbn [pBin pMore pUn pOperand pPost pArgs pElems pElem pType pFields]; mono.
Qed.
Lemma bin_up : forall n m a ts, (n <= m)%nat -> le (pBin n a ts) (pBin m a ts).
Proof. intros. now apply exprs_up. Qed.
Lemma type_up : forall n m ts, (n <= m)%nat -> le (pType n ts) (pType m ts).
Proof. intros. now apply exprs_up. Qed.
Lemma list_up : forall n m, (n <= m)%nat -> forall ts, le (pList n ts) (pList m ts).
Proof.
  induction n as [|n IH]; intros m L ts; [apply le_none|]. destruct m as [|m]; [lia|]. assert (L' : (n <= m)%nat) by lia. specialize (IH m L').
  pose proof (fun a ts => bin_up n m a ts L'). cbn [pList]. mono.
Qed.
Lemma simple_up : forall n m, (n <= m)%nat -> forall ts, le (pSimple n ts) (pSimple m ts).
Proof. intros n m L ts. pose proof (list_up n m L). unfold pSimple. mono. Qed.
Definition stmtsUp (n m : nat) : Prop :=
  (forall ts, le (pStmt n ts) (pStmt m ts)) /\ (forall ts, le (pBlock n ts) (pBlock m ts)) /\
  (forall ts, le (pStmts n ts) (pStmts m ts)) /\ (forall ts, le (pCases n ts) (pCases m ts)).
Lemma stmts_up : forall n m, (n <= m)%nat -> stmtsUp n m.
Proof.
  induction n as [|n IH]; intros m L; [repeat split; intros; apply le_none|].
  destruct m as [|m]; [lia|]. assert (L' : (n <= m)%nat) by lia. destruct (IH m L') as (I1 & I2 & I3 & I4).
  pose proof (fun a ts => bin_up n m a ts L'). pose proof (fun ts => type_up n m ts L'). pose proof (list_up n m L'). pose proof (simple_up n m L').
  unfold stmtsUp. repeat (match goal with |- _ /\ _ => split end); intros; cbn [pStmt pBlock pStmts pCases]; mono.
Qed.
Lemma params_up : forall n m, (n <= m)%nat -> forall ts, le (pParams n ts) (pParams m ts).
Proof.
  induction n as [|n IH]; intros m L ts; [apply le_none|]. destruct m as [|m]; [lia|]. assert (L' : (n <= m)%nat) by lia. specialize (IH m L').
  pose proof (fun ts => type_up n m ts L'). cbn [pParams]. mono.
Qed.
Lemma types_up : forall n m, (n <= m)%nat -> forall ts, le (pTypes n ts) (pTypes m ts).
Proof.
  induction n as [|n IH]; intros m L ts; [apply le_none|]. destruct m as [|m]; [lia|]. assert (L' : (n <= m)%nat) by lia. specialize (IH m L').
  pose proof (fun ts => type_up n m ts L'). cbn [pTypes]. mono.
Qed.
Lemma decl_up : forall n m, (n <= m)%nat -> forall ts, le (pDecl n ts) (pDecl m ts).
Proof.
  intros n m L ts. pose proof (fun ts => type_up n m ts L). pose proof (types_up n m L). pose proof (params_up n m L). destruct (stmts_up n m L) as (_ & ? & _).
  unfold pDecl, pResults. mono.
Qed.
Lemma decls_up : forall n m, (n <= m)%nat -> forall ts, le (pDecls n ts) (pDecls m ts).
Proof.
  induction n as [|n IH]; intros m L ts; [apply le_none|]. destruct m as [|m]; [lia|]. assert (L' : (n <= m)%nat) by lia. specialize (IH m L').
  pose proof (decl_up n m L'). cbn [pDecls]. mono.
Qed.
Lemma paths_up : forall n m, (n <= m)%nat -> forall ts, le (pPaths n ts) (pPaths m ts).
Proof.
  induction n as [|n IH]; intros m L ts; [apply le_none|]. destruct m as [|m]; [lia|]. assert (L' : (n <= m)%nat) by lia. specialize (IH m L').
  cbn [pPaths]. mono.
Qed.
Lemma imports_up : forall n m, (n <= m)%nat -> forall ts, le (pImports n ts) (pImports m ts).
Proof.
  induction n as [|n IH]; intros m L ts; [apply le_none|]. destruct m as [|m]; [lia|]. assert (L' : (n <= m)%nat) by lia. specialize (IH m L').
  pose proof (paths_up n m L'). cbn [pImports]. mono.
Qed.
Lemma read_up : forall n m s, (n <= m)%nat -> le (readGo n s) (readGo m s).
Proof. intros n m s L. pose proof (imports_up n m L). pose proof (decls_up n m L). unfold readGo, pFile. mono. Qed.
Theorem read_once : forall n m s x y, readGo n s = Some x -> readGo m s = Some y -> x = y.
Proof.
  intros n m s x y A B. apply (read_up n (Nat.max n m)) in A; [|lia]. apply (read_up m (Nat.max n m)) in B; [|lia]. congruence.
Qed.
