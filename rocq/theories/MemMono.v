(** A run on the machine with memory that ends does not depend on the bound on
    its length. *)
From Coq Require Import ZArith String List Bool Lia ZifyBool ZifyNat.
From Verif Require Import Base GoLang GoMem MemExec.
Import ListNotations.
Open Scope string_scope.
Open Scope list_scope.
Open Scope Z_scope.

Section Ind.
Variable P : stmt -> Prop.
Hypothesis Hdecl : forall x a, P (SDecl x a).
Hypothesis Hvar : forall x t, P (SVar x t).
Hypothesis Hassign : forall l a, P (SAssign l a).
Hypothesis Hassign2 : forall l1 l2 a b, P (SAssign2 l1 l2 a b).
Hypothesis Hif : forall c b, Forall P b -> P (SIf c b).
Hypothesis Hblock : forall b, Forall P b -> P (SBlock b).
Hypothesis Hfor : forall x e b, Forall P b -> P (SForLt x e b).
Hypothesis Hwhile : forall c b, Forall P b -> P (SWhile c b).
Hypothesis Hswitch : forall cs, Forall (fun cb => Forall P (snd cb)) cs -> P (SSwitch cs).
Hypothesis Hreturn : forall a b, P (SReturn a b).
Hypothesis Hparse : forall x err o a args, P (SParse x err o a args).
Hypothesis Hparsed : forall err o a args, P (SParseDecl err o a args).
Fixpoint stmt_ind' (s : stmt) : P s :=
  let all := fix all (b : list stmt) : Forall P b :=
    match b with [] => Forall_nil P | s :: b' => Forall_cons s (stmt_ind' s) (all b') end in
  match s with
  | SDecl x a => Hdecl x a
  | SVar x t => Hvar x t
  | SAssign l a => Hassign l a
  | SAssign2 l1 l2 a b => Hassign2 l1 l2 a b
  | SIf c b => Hif c b (all b)
  | SBlock b => Hblock b (all b)
  | SForLt x e b => Hfor x e b (all b)
  | SWhile c b => Hwhile c b (all b)
  | SSwitch cs => Hswitch cs ((fix go (cs : list (option expr * list stmt)) : Forall (fun cb => Forall P (snd cb)) cs :=
      match cs with [] => Forall_nil _ | (c, b) :: cs' => Forall_cons (c, b) (all b) (go cs') end) cs)
  | SReturn a b => Hreturn a b
  | SParse x err o a args => Hparse x err o a args
  | SParseDecl err o a args => Hparsed err o a args
  end.
End Ind.

(** The second result is the first one, unless that was cut short. *)
Definition later {A} (x y : A * hres) : Prop := snd x = HFuel \/ x = y.
Lemma later_refl : forall {A} (x : A * hres), later x x.
Proof. now right. Qed.

Section Mono.
Variable pl : platform.
Variable types : amap (list (string * gtype)).
Variables call call' : hcallfun.
Variables n n' : nat.
Hypothesis NN : (n <= n')%nat.
Hypothesis CC : forall H recv d args, later (call H recv d args) (call' H recv d args).
Notation ex := (hexec pl types call n).
Notation ex' := (hexec pl types call' n').
Notation exs := (hexecs pl types call n).
Notation exs' := (hexecs pl types call' n').

Lemma lift_later : forall {A} H e (x : outcome A) (k k' : A -> hstate), (forall a, later (k a) (k' a)) -> later (hlift H e x k) (hlift H e x k').
Proof. intros A H e [] k k' K; cbn [hlift]; auto; now right. Qed.
Lemma block_later : forall b, Forall (fun s => forall H e, later (ex s H e) (ex' s H e)) b -> forall H e, later (exs b H e) (exs' b H e).
Proof.
  induction b as [|s b IH]; intros F H e; [now right|]. inversion F as [|? ? F1 F2]; subst. rewrite !hexecs_cons.
  destruct (F1 H e) as [L|<-].
  - destruct (ex s H e) as [[H1 e1] r]. cbn [snd] in L. subst r. now left.
  - destruct (ex s H e) as [[H1 e1] []]; try now right. auto.
Qed.
Lemma scoped_later : forall b, Forall (fun s => forall H e, later (ex s H e) (ex' s H e)) b -> forall H e,
  later (hblock pl types call n b H e) (hblock pl types call' n' b H e).
Proof.
  intros b F H e. unfold hblock. destruct (block_later b F H e) as [L|<-].
  - destruct (exs b H e) as [[H1 e1] r]. cbn [snd] in L. subst r. now left.
  - destruct (exs b H e) as [[H1 e1] r]. now right.
Qed.

Theorem exec_later : forall s H e, later (ex s H e) (ex' s H e).
Proof.
  induction s as [x a|x t|l a|l1 l2 a b|c b IH|b IH|x bd b IH|c b IH|cs IH|a b|x err o a args|err o a args] using stmt_ind'; intros H e; try now right.
  - rewrite !hexec_if. apply lift_later. intros [v H1]. destruct v as [| | | | | | |[]]; try now right. now apply scoped_later.
  - rewrite !hexec_block. now apply scoped_later.
  - rewrite !hexec_for.
    assert (K : forall m m' H e, (m <= m')%nat -> later (hforLoop pl types call n x bd b m H e) (hforLoop pl types call' n' x bd b m' H e)).
    { induction m as [|m IHm]; intros m' H0 e0 L.
      - destruct m'; cbn [hforLoop]; apply lift_later; intros [v H1]; destruct v as [| | | | | | |[]]; try (now right); now left.
      - destruct m' as [|m']; [lia|]. cbn [hforLoop]. apply lift_later. intros [v H1]. destruct v as [| | | | | | |[]]; try (now right).
        destruct (scoped_later b IH H1 e0) as [B|<-].
        + destruct (hblock pl types call n b H1 e0) as [[H2 e2] r]. cbn [snd] in B. subst r. now left.
        + destruct (hblock pl types call n b H1 e0) as [[H2 e2] []]; try now right. apply lift_later. intros [w H3]. apply IHm. lia. }
    destruct (K n n' H ((x, HInt 0) :: e) NN) as [B|<-].
    + destruct (hforLoop _ _ _ _ _ _ _ _ _ _) as [[H2 e2] r]. cbn [snd] in B. subst r. now left.
    + destruct (hforLoop _ _ _ _ _ _ _ _ _ _) as [[H2 e2] r]. now right.
  - rewrite !hexec_while.
    assert (K : forall m m' H e, (m <= m')%nat -> later (hwhileLoop pl types call n c b m H e) (hwhileLoop pl types call' n' c b m' H e)).
    { induction m as [|m IHm]; intros m' H0 e0 L.
      - destruct m'; cbn [hwhileLoop]; apply lift_later; intros [v H1]; destruct v as [| | | | | | |[]]; try (now right); now left.
      - destruct m' as [|m']; [lia|]. cbn [hwhileLoop]. apply lift_later. intros [v H1]. destruct v as [| | | | | | |[]]; try (now right).
        destruct (scoped_later b IH H1 e0) as [B|<-].
        + destruct (hblock pl types call n b H1 e0) as [[H2 e2] r]. cbn [snd] in B. subst r. now left.
        + destruct (hblock pl types call n b H1 e0) as [[H2 e2] []]; try now right. apply IHm. lia. }
    auto.
  - rewrite !hexec_switch. 
    assert (D : forall cs0 H, Forall (fun cb => Forall (fun s => forall H e, later (ex s H e) (ex' s H e)) (snd cb)) cs0 ->
      later (hswDefault pl types call n e cs0 H) (hswDefault pl types call' n' e cs0 H)).
    { induction cs0 as [|[[c|] b] cs0 IHc]; intros H0 F; cbn [hswDefault]; [now right| |]; inversion F; subst; auto. now apply scoped_later. }
    revert H. assert (K : forall cs0 H, Forall (fun cb => Forall (fun s => forall H e, later (ex s H e) (ex' s H e)) (snd cb)) cs0 ->
      later (hswPick pl types call n e cs cs0 H) (hswPick pl types call' n' e cs cs0 H)).
    { induction cs0 as [|[[c|] b] cs0 IHc]; intros H0 F; cbn [hswPick]; [auto| |]; inversion F; subst; auto.
      apply lift_later. intros [v H1]. destruct v as [| | | | | | |[]]; try (now right); auto. now apply scoped_later. }
    auto.
  - cbn [hexec]. apply lift_later. intros [recv H1]. apply lift_later. intros [d H2]. apply lift_later. intros [vs H3].
    destruct (CC H3 recv d vs) as [B|<-].
    + destruct (call H3 recv d vs) as [H4 r]. cbn [snd] in B. subst r. now left.
    + now right.
  - cbn [hexec]. apply lift_later. intros [recv H1]. apply lift_later. intros [d H2]. apply lift_later. intros [vs H3].
    destruct (CC H3 recv d vs) as [B|<-].
    + destruct (call H3 recv d vs) as [H4 r]. cbn [snd] in B. subst r. now left.
    + now right.
Qed.
Lemma execs_later : forall b H e, later (exs b H e) (exs' b H e).
Proof. intros b. apply block_later. apply Forall_forall. intros s _. apply exec_later. Qed.
End Mono.

Theorem call_later : forall pl p n n' H recv d args, (n <= n')%nat -> later (hcallMethod pl p n H recv d args) (hcallMethod pl p n' H recv d args).
Proof.
  intros pl p. induction n as [|n IH]; intros n' H recv d args L.
  - destruct n' as [|n']; [now right|]. cbn [hcallMethod]. destruct recv as [| | | |l| | |]; try now right. destruct (nth_error H l) as [[|ty hfs]|]; try now right.
    destruct (alookup ty (pmethods p)); [now left|now right].
  - destruct n' as [|n']; [lia|]. cbn [hcallMethod]. destruct recv as [| | | |l| | |]; try now right. destruct (nth_error H l) as [[|ty hfs]|]; try now right.
    destruct (alookup ty (pmethods p)) as [f|]; [|now right].
    destruct (execs_later pl (ptypes p) (hcallMethod pl p n) (hcallMethod pl p n') n n') with (b := fbody f) (H := H) (e := (frecv f, HPtr l) :: ("data", d) :: combine (fparams f) args) as [B|<-]; try lia.
    + intros. apply IH. lia.
    + destruct (hexecs _ _ _ _ _ _ _) as [[H1 e1] r]. cbn [snd] in B. subst r. now left.
    + destruct (hexecs _ _ _ _ _ _ _) as [[H1 e1] r]. now right.
Qed.
Theorem ctor_later : forall pl p n n' ty H d args, (n <= n')%nat -> later (hcallCtor pl p n ty H d args) (hcallCtor pl p n' ty H d args).
Proof.
  intros pl p n n' ty H d args L. unfold hcallCtor. destruct (alookup ty (pctors p)) as [f|]; [|now right].
  destruct (execs_later pl (ptypes p) (hcallMethod pl p n) (hcallMethod pl p n') n n') with (b := fbody f) (H := H) (e := ("data", d) :: combine (fparams f) args) as [B|<-]; auto.
  - intros. now apply call_later.
  - destruct (hexecs _ _ _ _ _ _ _) as [[H1 e1] r]. cbn [snd] in B. subst r. now left.
  - destruct (hexecs _ _ _ _ _ _ _) as [[H1 e1] r]. now right.
Qed.
