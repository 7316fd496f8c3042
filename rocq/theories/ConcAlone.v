(** A goroutine that is alone does what GoMem.v says. *)
From Coq Require Import ZArith String List Bool Lia.
From Verif Require Import Base GoLang GoMem MemExec MemMono GoConc.
Import ListNotations.
Open Scope string_scope.
Open Scope list_scope.
Open Scope Z_scope.

Section Unfold.
Variable call : tcallfun.
Variable n : nat.
Notation texec := (texec call n).
Notation texecs := (texecs call n).

Definition tblock (b : list stmt) (e : henv) (k : henv -> hres -> thread) : thread :=
  texecs b e (fun e1 r => k (hleave e e1) r).
Lemma texecs_eq : forall b e k,
  (fix go (ss : list stmt) (e : henv) (k : henv -> hres -> thread) {struct ss} : thread :=
    match ss with
    | [] => k e HNext
    | s1 :: ss' => texec s1 e (fun e1 r => match r with HNext => go ss' e1 k | _ => k e1 r end)
    end) b e k = texecs b e k.
Proof. reflexivity. Qed.
Lemma texec_block : forall b e k, texec (SBlock b) e k = tblock b e k.
Proof. reflexivity. Qed.
Lemma texec_if : forall c b e k, texec (SIf c b) e k = TEval e c (fun v =>
  match v with HBool true => tblock b e k | HBool false => k e HNext | _ => TEnd (HPanic "ill-typed") end).
Proof. reflexivity. Qed.
Definition tforLoop (x : string) (bound : expr) (b : list stmt) :=
  fix loop (m : nat) (e : henv) (k : henv -> hres -> thread) {struct m} : thread :=
        TEval e (EBin BLt (EVar x) bound) (fun v =>
        match v with
        | HBool false => k e HNext
        | HBool true =>
            match m with
            | O => TEnd HFuel
            | S m' =>
                tblock b e (fun e1 r =>
                match r with
                | HNext => TEval e1 (EBin BAdd (EVar x) (EInt 1)) (fun w => loop m' (hassign x w e1) k)
                | _ => k e1 r
                end)
            end
        | _ => TEnd (HPanic "ill-typed")
        end).
Lemma texec_for : forall x bound b e k, texec (SForLt x bound b) e k =
  tforLoop x bound b n ((x, HInt 0) :: e) (fun e1 r => k (hleave e e1) r).
Proof. reflexivity. Qed.
Definition twhileLoop (c : expr) (b : list stmt) :=
  fix loop (m : nat) (e : henv) (k : henv -> hres -> thread) {struct m} : thread :=
        TEval e c (fun v =>
        match v with
        | HBool false => k e HNext
        | HBool true =>
            match m with
            | O => TEnd HFuel
            | S m' => tblock b e (fun e1 r => match r with HNext => loop m' e1 k | _ => k e1 r end)
            end
        | _ => TEnd (HPanic "ill-typed")
        end).
Lemma texec_while : forall c b e k, texec (SWhile c b) e k = twhileLoop c b n e k.
Proof. reflexivity. Qed.
Definition tswDefault (e : henv) (k : henv -> hres -> thread) := fix default (cs : list (option expr * list stmt)) : thread :=
        match cs with
        | [] => k e HNext
        | (None, b) :: _ => tblock b e k
        | (Some _, _) :: cs' => default cs'
        end.
Definition tswPick (e : henv) (k : henv -> hres -> thread) (all : list (option expr * list stmt)) := fix pick (cs0 : list (option expr * list stmt)) : thread :=
        match cs0 with
        | [] => tswDefault e k all
        | (None, _) :: cs' => pick cs'
        | (Some c, b) :: cs' =>
            TEval e c (fun v =>
            match v with
            | HBool true => tblock b e k
            | HBool false => pick cs'
            | _ => TEnd (HPanic "ill-typed")
            end)
        end.
Lemma texec_switch : forall cs e k, texec (SSwitch cs) e k = tswPick e k cs cs.
Proof. reflexivity. Qed.
Lemma texecs_cons : forall s ss e k, texecs (s :: ss) e k = texec s e (fun e1 r => match r with HNext => texecs ss e1 k | _ => k e1 r end).
Proof. reflexivity. Qed.
End Unfold.

Section Alone.
Variable pl : platform.
Variable types : amap (list (string * gtype)).
Variable call : hcallfun.
Variable tcall : tcallfun.
Variable n : nat.
Notation alone := (alone pl types).
(** The goroutine [t] ends like [k] does after [x], or panics like [x]. *)
Definition ends {A} (t : heap * hres) (x : A * hres) (k : A -> hres -> heap * hres) : Prop :=
  match snd x with HNext | HRet _ _ => t = k (fst x) (snd x) | r => snd t = r end.
Hypothesis CALL : forall H recv d args k, ends (alone (tcall recv d args k) H) (call H recv d args) (fun H1 r => alone (k r) H1).
Notation heval := (heval pl types).
Notation hexec := (hexec pl types call n).
Notation hexecs := (hexecs pl types call n).
Notation hblock := (hblock pl types call n).
Notation texec := (texec tcall n).
Notation texecs := (texecs tcall n).
Notation tblock := (tblock tcall n).
Definition after (k : henv -> hres -> thread) (He : heap * henv) (r : hres) : heap * hres := alone (k (snd He) r) (fst He).

Lemma ends_eval : forall H e0 e x k (kk : hval * heap -> hstate) K, (forall v H1, ends (alone (k v) H1) (kk (v, H1)) K) ->
  ends (alone (TEval e x k) H) (hlift H e0 (heval H e x) kk) K.
Proof.
  intros H e0 e x k kk K A. cbn [GoConc.alone]. destruct (heval H e x) as [[v H1]| | |]; cbn [hlift]; [apply A| | |]; reflexivity.
Qed.
Lemma ends_store : forall H e0 e l v k (kk : heap * henv -> hstate) K, (forall H1 e1, ends (alone (k e1) H1) (kk (H1, e1)) K) ->
  ends (alone (TStore e l v k) H) (hlift H e0 (hstore pl types H e l v) kk) K.
Proof.
  intros H e0 e l v k kk K A. cbn [GoConc.alone]. destruct (hstore pl types H e l v) as [[H1 e1]| | |]; cbn [hlift]; [apply A| | |]; reflexivity.
Qed.
Lemma ends_evals : forall xs H e0 e k (kk : list hval * heap -> hstate) K, (forall vs H1, ends (alone (k vs) H1) (kk (vs, H1)) K) ->
  ends (alone (tevals e xs k) H) (hlift H e0 (hevals pl types H e xs) kk) K.
Proof.
  induction xs as [|x xs IH]; intros H e0 e k kk K A; cbn [tevals hevals]; [apply A|]. cbn [GoConc.alone].
  destruct (heval H e x) as [[v H1]| | |]; cbn [bind hlift]; try reflexivity.
  specialize (IH H1 e0 e (fun vs => k (v :: vs)) (fun '(vs, H2) => kk (v :: vs, H2)) K). 
  destruct (hevals pl types H1 e xs) as [[vs H2]| | |]; cbn [bind hlift] in *; apply IH; intros; apply A.
Qed.
Lemma ends_call : forall H recv d args (kr : hres -> thread) (kk : heap * hres -> hstate) K,
  (forall H1 r, match r with HNext | HRet _ _ => ends (alone (kr r) H1) (kk (H1, r)) K | _ => snd (kk (H1, r)) = r end) ->
  ends (alone (tcall recv d args kr) H) (kk (call H recv d args)) K.
Proof.
  intros H recv d args kr kk K A. pose proof (CALL H recv d args kr) as C. destruct (call H recv d args) as [H1 r]. specialize (A H1 r).
  unfold ends in C. cbn [fst snd] in C. destruct r; try (rewrite C; exact A); unfold ends; rewrite A; exact C.
Qed.

Definition okS (s : stmt) : Prop := forall H e k, ends (alone (texec s e k) H) (hexec s H e) (after k).
Lemma ends_execs : forall b, Forall okS b -> forall H e k, ends (alone (texecs b e k) H) (hexecs b H e) (after k).
Proof.
  induction b as [|s b IH]; intros F H e k; [reflexivity|]. inversion F as [|? ? F1 F2]; subst. rewrite texecs_cons, hexecs_cons.
  specialize (F1 H e (fun e1 r => match r with HNext => texecs b e1 k | _ => k e1 r end)).
  destruct (hexec s H e) as [[H1 e1] r]. destruct r; unfold ends, after in F1; cbn [fst snd] in F1; try exact F1.
  rewrite F1. exact (IH F2 H1 e1 k).
Qed.
Lemma ends_block : forall b, Forall okS b -> forall H e k, ends (alone (tblock b e k) H) (hblock b H e) (after k).
Proof.
  intros b F H e k. unfold ConcAlone.tblock, MemExec.hblock. pose proof (ends_execs b F H e (fun e1 r => k (hleave e e1) r)) as X.
  destruct (hexecs b H e) as [[H1 e1] r]. exact X.
Qed.

Theorem ends_exec : forall s, okS s.
Proof.
  induction s as [x a|x t|l a|l1 l2 a b|c b IH|b IH|x bd b IH|c b IH|cs IH|a b|x err o a args|err o a args] using stmt_ind'; intros H e k.
  - cbn [GoConc.texec GoMem.hexec]. apply ends_eval. reflexivity.
  - reflexivity.
  - cbn [GoConc.texec GoMem.hexec]. apply ends_eval. intros v H1. apply ends_store. reflexivity.
  - cbn [GoConc.texec GoMem.hexec]. apply ends_eval. intros v H1. apply ends_eval. intros w H2. apply ends_store. intros H3 e3. apply ends_store. reflexivity.
  - rewrite texec_if, hexec_if. apply ends_eval. intros v H1. destruct v as [| | | | | | |[]]; try reflexivity. now apply ends_block.
  - rewrite texec_block, hexec_block. now apply ends_block.
  - rewrite texec_for, hexec_for.
    assert (L : forall m H e k, ends (alone (tforLoop tcall n x bd b m e k) H) (hforLoop pl types call n x bd b m H e) (after k)).
    { clear H e k. induction m as [|m IHm]; intros H e k; cbn [tforLoop hforLoop]; apply ends_eval; intros v H1; destruct v as [| | | | | | |[]]; try reflexivity.
      pose proof (ends_block b IH H1 e (fun e1 r => match r with HNext => TEval e1 (EBin BAdd (EVar x) (EInt 1)) (fun w => tforLoop tcall n x bd b m (hassign x w e1) k) | _ => k e1 r end)) as X.
      destruct (hblock b H1 e) as [[H2 e2] r]. destruct r; unfold ends, after in X; cbn [fst snd] in X; try exact X.
      rewrite X. apply ends_eval. intros w H3. apply IHm. }
    specialize (L n H ((x, HInt 0) :: e) (fun e1 r => k (hleave e e1) r)).
    destruct (hforLoop pl types call n x bd b n H ((x, HInt 0) :: e)) as [[H1 e1] r]. exact L.
  - rewrite texec_while, hexec_while. revert H e k.
    assert (L : forall m H e k, ends (alone (twhileLoop tcall n c b m e k) H) (hwhileLoop pl types call n c b m H e) (after k)); [|intros; apply L].
    induction m as [|m IHm]; intros H e k; cbn [twhileLoop hwhileLoop]; apply ends_eval; intros v H1; destruct v as [| | | | | | |[]]; try reflexivity.
    pose proof (ends_block b IH H1 e (fun e1 r => match r with HNext => twhileLoop tcall n c b m e1 k | _ => k e1 r end)) as X.
    destruct (hblock b H1 e) as [[H2 e2] r]. destruct r; unfold ends, after in X; cbn [fst snd] in X; try exact X.
    rewrite X. apply IHm.
  - rewrite texec_switch, hexec_switch.
    assert (D : forall cs1, Forall (fun cb => Forall okS (snd cb)) cs1 -> forall H, ends (alone (tswDefault tcall n e k cs1) H) (hswDefault pl types call n e cs1 H) (after k)).
    { induction cs1 as [|[[c|] b] cs1 IH1]; intros F H1; cbn [tswDefault hswDefault]; [reflexivity| |]; inversion F; subst; auto. now apply ends_block. }
    assert (P : forall cs1, Forall (fun cb => Forall okS (snd cb)) cs1 -> forall H, ends (alone (tswPick tcall n e k cs cs1) H) (hswPick pl types call n e cs cs1 H) (after k)).
    { induction cs1 as [|[[c|] b] cs1 IH1]; intros F H1; cbn [tswPick hswPick]; [auto| |]; inversion F; subst; auto.
      apply ends_eval. intros v H2. destruct v as [| | | | | | |[]]; try reflexivity; auto. now apply ends_block. }
    now apply P.
  - cbn [GoConc.texec GoMem.hexec]. apply ends_eval. intros v H1. apply ends_eval. reflexivity.
  - cbn [GoConc.texec GoMem.hexec]. apply ends_eval. intros recv H1. apply ends_eval. intros d H2. apply ends_evals. intros vs H3.
    match goal with |- ends _ (let '(_, _) := ?c in _) _ => 
      apply (ends_call H3 recv d vs _ (fun Hr => let '(H, r) := Hr in match r with
      | HRet v w => hlift H e (hstore pl types H e (LVar x) v) (fun '(H, e) => hlift H e (hstore pl types H e (LVar err) w) (fun '(H, e) => (H, e, HNext)))
      | HNext => (H, e, HPanic "missing return")
      | _ => (H, e, r) end)) end.
    intros H4 r. destruct r; try reflexivity. apply ends_store. intros H5 e5. apply ends_store. reflexivity.
  - cbn [GoConc.texec GoMem.hexec]. apply ends_eval. intros recv H1. apply ends_eval. intros d H2. apply ends_evals. intros vs H3.
    match goal with |- ends _ (let '(_, _) := ?c in _) _ => 
      apply (ends_call H3 recv d vs _ (fun Hr => let '(H, r) := Hr in match r with
      | HRet v w => (H, (err, w) :: e, HNext)
      | HNext => (H, e, HPanic "missing return")
      | _ => (H, e, r) end)) end.
    intros H4 r. destruct r; reflexivity.
Qed.
Lemma ends_all : forall b H e k, ends (alone (texecs b e k) H) (hexecs b H e) (after k).
Proof. intros b. apply ends_execs. rewrite Forall_forall. intros s _. apply ends_exec. Qed.
End Alone.

Theorem alone_call : forall pl p n H recv d args k,
  ends (alone pl (ptypes p) (tcallMethod p n recv d args k) H) (hcallMethod pl p n H recv d args) (fun H1 r => alone pl (ptypes p) (k r) H1).
Proof.
  intros pl p. induction n as [|n IH]; intros H recv d args k; destruct recv; try reflexivity; cbn [tcallMethod hcallMethod alone].
  - destruct (nth_error H p0) as [[|ty hfs]|]; try reflexivity. destruct (alookup ty (pmethods p)); reflexivity.
  - destruct (nth_error H p0) as [[|ty hfs]|]; try reflexivity. destruct (alookup ty (pmethods p)) as [f|]; [|reflexivity].
    pose proof (ends_all pl (ptypes p) (hcallMethod pl p n) (tcallMethod p n) n IH (fbody f) H ((frecv f, HPtr p0) :: ("data", d) :: combine (fparams f) args) (fun _ r => k r)) as X.
    destruct (hexecs pl (ptypes p) (hcallMethod pl p n) n (fbody f) H ((frecv f, HPtr p0) :: ("data", d) :: combine (fparams f) args)) as [[H1 e1] r]. exact X.
Qed.
Theorem alone_ctor : forall pl p n ty H d args k,
  ends (alone pl (ptypes p) (tcallCtor p n ty d args k) H) (hcallCtor pl p n ty H d args) (fun H1 r => alone pl (ptypes p) (k r) H1).
Proof.
  intros pl p n ty H d args k. unfold tcallCtor, hcallCtor. destruct (alookup ty (pctors p)) as [f|]; [|reflexivity].
  pose proof (ends_all pl (ptypes p) (hcallMethod pl p n) (tcallMethod p n) n (alone_call pl p n) (fbody f) H (("data", d) :: combine (fparams f) args) (fun _ r => k r)) as X.
  destruct (hexecs pl (ptypes p) (hcallMethod pl p n) n (fbody f) H (("data", d) :: combine (fparams f) args)) as [[H1 e1] r]. exact X.
Qed.
