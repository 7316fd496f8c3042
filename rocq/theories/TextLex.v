(** Proofs about the tokens of text that is put together from fixed pieces and
    names, numbers and expressions. *)
From Coq Require Import ZArith String Ascii DecimalString DecimalFacts DecimalN DecimalZ DecimalPos List Bool Lia.
From Verif Require Import Base GoLang GoTypes GoText GenPrint TextModel.
Import ListNotations.
Open Scope string_scope.
Open Scope list_scope.
Open Scope Z_scope.

Definition pre {A} (ts : list token) (x : list token * A) : list token * A := (ts ++ fst x, snd x).
Lemma pre_nil : forall A (x : list token * A), pre [] x = x.
Proof. intros A []. reflexivity. Qed.
Lemma pre_pre : forall A a b (x : list token * A), pre a (pre b x) = pre (a ++ b) x.
Proof. intros A a b []. unfold pre. cbn. now rewrite app_assoc. Qed.

Lemma append_assoc : forall a b c : string, ((a ++ b) ++ c = a ++ (b ++ c))%string.
Proof. induction a as [|x a IH]; intros; cbn; congruence. Qed.
Lemma append_nil : forall a : string, (a ++ "" = a)%string.
Proof. induction a as [|x a IH]; cbn; congruence. Qed.
Lemma join_app : forall l m, join (l ++ m) = (join l ++ join m)%string.
Proof. induction l as [|x l IH]; intros; cbn; [reflexivity|]. now rewrite IH, append_assoc. Qed.

Lemma run_cons : forall st c s, run st (String c s) = pre (fst (step st c)) (run (snd (step st c)) s).
Proof. intros st c s. cbn [run]. destruct (step st c) as [ts st1]. cbn [fst snd]. destruct (run st1 s). reflexivity. Qed.
Lemma run_app : forall a st b, run st (a ++ b)%string = pre (fst (run st a)) (run (snd (run st a)) b).
Proof.
  induction a as [|c a IH]; intros st b; cbn [append].
  - cbn [run fst snd]. now rewrite pre_nil.
  - rewrite !run_cons, IH, pre_pre. reflexivity.
Qed.

(** Characters of names and numbers. *)
Definition alnum (c : ascii) : bool := (isLetter c || isDigit c)%bool.
Fixpoint alnums (s : string) : bool := match s with EmptyString => true | String c s' => alnum c && alnums s' end.

(** States in which the next token can begin without a blank. *)
Definition opener (st : lstate) : bool :=
  match st with
  | sGap _ => true
  | sOp _ o => inb o ["("; "["; "]"; ","; "*"; "{"; "}"; ")"; ":"; "."; "!"]
  | _ => false
  end.
Definition openFor (c : ascii) (st : lstate) : Prop := forall s, run st (String c s) = pre (fst (finish st)) (run (sGap (snd (finish st))) (String c s)).
Lemma open_gap : forall c b, openFor c (sGap b).
Proof. intros c b s. cbn [finish fst snd]. now rewrite pre_nil. Qed.
Lemma restart_run : forall st c s, step st c = restart st c -> run st (String c s) = pre (fst (finish st)) (run (sGap (snd (finish st))) (String c s)).
Proof.
  intros st c s H. rewrite !run_cons, H. unfold restart. destruct (finish st) as [ts b]. cbn [fst snd step]. destruct (start b c) as [us st'].
  cbn [fst snd]. now rewrite pre_pre.
Qed.
(** Letters, digits, parentheses, brackets and stars begin something new after those. *)
Definition opens (c : ascii) : bool := (alnum c || inb (one c) ["("; "["; "*"; "-"])%bool.
Lemma open_op : forall c st, opener st = true -> opens c = true -> openFor c st.
Proof.
  intros c st O P. destruct st as [b|w|w|w|b o|b]; try discriminate; [apply open_gap|]. intros s. apply restart_run. cbn [step].
  assert (X : (String.eqb o "/" && Ascii.eqb c "/")%bool = false /\ (String.eqb o "/" && Ascii.eqb c "*")%bool = false /\ inb (o ++ one c) operators = false).
  { cbn [opener] in O. unfold inb in O. rewrite existsb_exists in O. destruct O as (x & I & E). apply String.eqb_eq in E. subst x.
    cbn [In] in I. repeat (destruct I as [<-|I]); try contradiction;
    destruct c as [[] [] [] [] [] [] [] []]; vm_compute in P; try discriminate P; vm_compute; auto. }
  destruct X as (X1 & X2 & X3). now rewrite X1, X2, X3.
Qed.

(** A piece of text that gives the tokens [ts] after such a state and before
    anything that is not a letter or a digit. *)
Definition hole (s : string) (ts : list token) : Prop :=
  forall st c rest, opener st = true -> alnum c = false ->
  run st (s ++ String c rest)%string = pre (fst (finish st) ++ ts) (run (sGap true) (String c rest)).

Lemma word_run : forall s w c rest, alnums s = true -> alnum c = false ->
  run (sWord w) (s ++ String c rest)%string = pre [word (w ++ s)%string] (run (sGap (endsLine (word (w ++ s)))) (String c rest)).
Proof.
  induction s as [|x s IH]; intros w c rest A C; cbn [append].
  - rewrite restart_run by (cbn [step]; unfold alnum in C; now rewrite C). cbn [finish fst snd]. now rewrite append_nil.
  - cbn [alnums] in A. apply andb_prop in A as [A1 A2]. rewrite run_cons. cbn [step]. unfold alnum in A1. rewrite A1. cbn [fst snd]. rewrite pre_nil.
    rewrite IH by assumption. rewrite append_assoc. reflexivity.
Qed.
Lemma num_run : forall s w c rest, alnums s = true -> alnum c = false ->
  run (sNum w) (s ++ String c rest)%string = pre [tkNum (w ++ s)%string] (run (sGap true) (String c rest)).
Proof.
  induction s as [|x s IH]; intros w c rest A C; cbn [append].
  - rewrite restart_run by (cbn [step]; unfold alnum in C; now rewrite C). cbn [finish fst snd]. now rewrite append_nil.
  - cbn [alnums] in A. apply andb_prop in A as [A1 A2]. rewrite run_cons. cbn [step]. unfold alnum in A1. rewrite A1. cbn [fst snd]. rewrite pre_nil.
    rewrite IH by assumption. rewrite append_assoc. reflexivity.
Qed.

Lemma goName_word : forall x, goName x = true -> word x = tkId x.
Proof.
  intros [|c x] H; [discriminate|]. cbn [goName] in H. apply andb_prop in H as [H _]. apply andb_prop in H as [_ H]. unfold word.
  apply negb_true_iff in H. now rewrite H.
Qed.
Lemma identTail_alnums : forall s, identTail s = alnums s.
Proof. induction s as [|c s IH]; cbn; [reflexivity|]. now rewrite IH. Qed.
Lemma hole_name : forall x, goName x = true -> hole x [tkId x].
Proof.
  intros x H st c rest O C. pose proof (goName_word x H) as W. destruct x as [|a x]; [discriminate|]. cbn [goName] in H.
  apply andb_prop in H as [H _]. apply andb_prop in H as [H _]. apply andb_prop in H as [L T]. cbn [append].
  assert (P : opens a = true) by (unfold opens, alnum; rewrite L; reflexivity). rewrite (open_op _ _ O P). rewrite <- pre_pre. f_equal.
  rewrite run_cons. cbn [step]. unfold start.
  assert (N1 : Ascii.eqb a newline = false /\ isBlank a = false).
  { destruct a as [[] [] [] [] [] [] [] []]; vm_compute in L; try discriminate L; vm_compute; auto. }
  destruct N1 as [N1 N2]. rewrite N1, N2, L. cbn [fst snd]. rewrite pre_nil, identTail_alnums in *. rewrite word_run by assumption.
  cbn [append one]. now rewrite W.
Qed.

(** Numbers. *)
Lemma digits_alnum : forall d, alnums (NilEmpty.string_of_uint d) = true.
Proof. induction d; cbn [NilEmpty.string_of_uint alnums]; [reflexivity| | | | | | | | | |]; rewrite IHd; reflexivity. Qed.

Lemma to_uint_head : forall n d, N.to_uint n = Decimal.D0 d -> d = Decimal.Nil.
Proof.
  intros n d H. assert (U : Decimal.unorm (N.to_uint n) = N.to_uint n).
  { rewrite <- (DecimalN.Unsigned.to_of (N.to_uint n)). now rewrite DecimalN.Unsigned.of_to. }
  rewrite H in U. unfold Decimal.unorm in U. cbn [Decimal.nzhead] in U.
  assert (Z : forall e x, Decimal.nzhead e <> Decimal.D0 x).
  { induction e; cbn; intros x; try discriminate. apply IHe. }
  destruct (Decimal.nzhead d) as [| | | | | | | | | |] eqn:E; inversion U; subst; try reflexivity. now apply Z in E.
Qed.

Lemma showZ_nonneg : forall z, 0 <= z -> showZ z = NilEmpty.string_of_uint (N.to_uint (Z.to_N z)).
Proof. intros z H. unfold showZ, Z.to_int. destruct z; cbn; try lia; reflexivity. Qed.
Lemma showZ_neg : forall z, z < 0 -> showZ z = String "-" (showZ (- z)).
Proof. intros z H. unfold showZ, Z.to_int. destruct z; cbn; try lia. reflexivity. Qed.

Definition isNum (s : string) (z : Z) : Prop := exists c s', s = String c s' /\ isDigit c = true /\ alnums s' = true /\ intOf s = Some z.
Lemma num_show : forall z, 0 <= z -> isNum (showZ z) z.
Proof.
  intros z H. rewrite showZ_nonneg by assumption.
  assert (NZ : N.to_uint (Z.to_N z) <> Decimal.Nil).
  { unfold N.to_uint. destruct (Z.to_N z); [discriminate|]. apply DecimalPos.Unsigned.to_uint_nonnil. }
  assert (OF : Z.of_uint (N.to_uint (Z.to_N z)) = z).
  { unfold Z.of_uint.
    pose proof (DecimalN.Unsigned.of_to (Z.to_N z)) as O. unfold N.of_uint in O. rewrite O. now rewrite Z2N.id. }
  pose proof (to_uint_head (Z.to_N z)) as HD. pose proof (NilZero.usu _ NZ) as US.
  remember (N.to_uint (Z.to_N z)) as d. 
  assert (SS : NilZero.string_of_uint d = NilEmpty.string_of_uint d) by (destruct d; try reflexivity; congruence).
  rewrite SS in US. unfold isNum.
  destruct d as [|d|d|d|d|d|d|d|d|d|d]; [congruence| | | | | | | | | |];
    (eexists; eexists; split; [reflexivity|]; split; [reflexivity|]; split; [apply digits_alnum|]).
  { rewrite (HD d eq_refl) in *. cbn in *. f_equal. lia. }
  all: (cbn [NilEmpty.string_of_uint] in US |- *; unfold intOf; rewrite US; cbn [option_map]; now rewrite OF).
Qed.

Lemma hole_num : forall s z, isNum s z -> hole s [tkNum s].
Proof.
  intros s z (a & s' & -> & D & A & _) st c rest O C. cbn [append].
  assert (P : opens a = true) by (unfold opens, alnum; rewrite D, orb_true_r; reflexivity). rewrite (open_op _ _ O P). rewrite <- pre_pre. f_equal.
  rewrite run_cons. cbn [step]. unfold start.
  assert (N1 : Ascii.eqb a newline = false /\ isBlank a = false /\ isLetter a = false).
  { destruct a as [[] [] [] [] [] [] [] []]; vm_compute in D; try discriminate D; vm_compute; auto. }
  destruct N1 as (N1 & N2 & N3). rewrite N1, N2, N3, D. cbn [fst snd]. rewrite pre_nil. now rewrite num_run by assumption.
Qed.

(** Text in pieces: fixed text, holes, and whole lines. *)
Inductive piece : Type :=
| Fix_ (s : string)
| Hole (s : string) (ts : list token)
| Lines (s : string) (ts : list token).
Definition textOf1 (p : piece) : string := match p with Fix_ s | Hole s _ | Lines s _ => s end.
Definition flat (ps : list piece) : string := join (map textOf1 ps).
Definition good (p : piece) : Prop :=
  match p with
  | Fix_ _ => True
  | Hole s ts => hole s ts
  | Lines s ts => run (sGap false) s = (ts, sGap false)
  end.
Definition fixedNext (ps : list piece) : bool := match ps with Fix_ (String c _) :: _ => negb (alnum c) | _ => false end.
Definition inGap (st : lstate) : bool := match st with sGap false => true | _ => false end.
Fixpoint fits (st : lstate) (ps : list piece) : bool :=
  match ps with
  | [] => true
  | Fix_ s :: ps' => fits (snd (run st s)) ps'
  | Hole _ _ :: ps' => opener st && fixedNext ps' && fits (sGap true) ps'
  | Lines _ _ :: ps' => inGap st && fits st ps'
  end.
Fixpoint toks (st : lstate) (ps : list piece) : list token * lstate :=
  match ps with
  | [] => ([], st)
  | Fix_ s :: ps' => pre (fst (run st s)) (toks (snd (run st s)) ps')
  | Hole _ ts :: ps' => pre (fst (finish st) ++ ts) (toks (sGap true) ps')
  | Lines _ ts :: ps' => pre ts (toks st ps')
  end.
Lemma run_pieces : forall ps st, Forall good ps -> fits st ps = true -> run st (flat ps) = toks st ps.
Proof.
  unfold flat. induction ps as [|p ps IH]; intros st G F; [reflexivity|]. inversion G as [|? ? G1 G2]; subst. cbn [map join].
  destruct p as [s|s ts|s ts]; cbn [textOf1 toks fits] in *.
  - rewrite run_app. now rewrite IH.
  - apply andb_prop in F as [F F2]. apply andb_prop in F as [F1 F3]. destruct ps as [|[[|c s1]|s1 t1|s1 t1] ps]; try discriminate F3.
    cbn [fixedNext] in F3. apply negb_true_iff in F3. cbn [good] in G1. specialize (IH (sGap true) G2 F2). rewrite <- IH.
    cbn [map textOf1 join append]. now apply G1.
  - apply andb_prop in F as [F1 F2]. destruct st as [[|]| | | | |]; try discriminate. rewrite run_app. cbn [good] in G1. rewrite G1. cbn [fst snd]. now rewrite IH.
Qed.

Ltac lexFixed := repeat match goal with
  | |- context [run ?st (String ?c ?s)] =>
      lazymatch c with Ascii _ _ _ _ _ _ _ _ => idtac end;
      let v := eval vm_compute in (run st (String c s)) in
      lazymatch v with (_, _) => change (run st (String c s)) with v; cbn [fst snd] end
  end.

Lemma open_fix : forall st c s, opener st = true -> opens c = true ->
  run st (String c s) = pre (fst (finish st)) (run (sGap (snd (finish st))) (String c s)).
Proof. intros. now apply open_op. Qed.
Lemma close_run : forall b o c s, inb o [")"; "]"] = true -> run (sOp b o) (String c s) = pre [tkOp o] (run (sGap true) (String c s)).
Proof.
  intros b o c s I. unfold inb in I. rewrite existsb_exists in I. destruct I as (x & I & E). apply String.eqb_eq in E. subst x.
  cbn [In] in I. repeat (destruct I as [<-|I]); try contradiction; rewrite restart_run; try reflexivity;
  destruct c as [[] [] [] [] [] [] [] []]; reflexivity.
Qed.
Lemma run_empty : forall st, run st "" = ([], st).
Proof. reflexivity. Qed.

(** Expressions made of holes. *)
Lemma hole_pieces : forall ps ts, Forall good ps ->
  (forall st c rest, opener st = true -> alnum c = false ->
     fits st (ps ++ [Fix_ (String c rest)]) = true /\
     toks st (ps ++ [Fix_ (String c rest)]) = pre (fst (finish st) ++ ts) (run (sGap true) (String c rest))) ->
  hole (flat ps) ts.
Proof.
  intros ps ts G H st c rest O C. destruct (H st c rest O C) as [F T]. assert (G2 : Forall good (ps ++ [Fix_ (String c rest)])) by (rewrite Forall_app; split; [exact G|repeat constructor]).
  rewrite <- T, <- run_pieces by assumption.
  unfold flat. rewrite map_app, join_app. cbn [map textOf1 join]. now rewrite append_nil.
Qed.
Lemma goods1 : forall s ts, hole s ts -> good (Hole s ts).
Proof. auto. Qed.

Lemma pre_eta : forall A ts (x : list token * A), (ts ++ fst x, snd x) = pre ts x.
Proof. reflexivity. Qed.
Ltac holes := repeat (apply Forall_cons; [first [exact I | assumption | (apply hole_name; assumption) | (eapply hole_num; eassumption)]|]); apply Forall_nil.
Ltac tidy := repeat rewrite ?pre_pre, ?pre_nil; repeat rewrite <- ?app_assoc; cbn [app].

Lemma hole_sel : forall a ts f, hole a ts -> goName f = true -> hole (join [a; "."; f]) (ts ++ [tkOp "."; tkId f]).
Proof.
  intros a ts f H N. apply (hole_pieces [Hole a ts; Fix_ "."; Hole f [tkId f]]); [holes|]. intros st c rest O C. split.
  - cbn [fits app fixedNext]. rewrite O. lexFixed. rewrite C. cbn [negb alnum]. reflexivity.
  - cbn [toks app]. lexFixed. destruct (run (sGap true) (String c rest)) as [us u]. cbn [fst snd]. unfold pre. cbn [fst snd finish]. rewrite app_nil_r, <- !app_assoc. reflexivity.
Qed.
Lemma hole_idx : forall a ts, hole a ts -> hole (join [a; "[idx]"]) (ts ++ [tkOp "["; tkId "idx"; tkOp "]"]).
Proof.
  intros a ts H. apply (hole_pieces [Hole a ts; Fix_ "[idx]"]); [holes|]. intros st c rest O C. split.
  - cbn [fits app fixedNext]. rewrite O. reflexivity.
  - cbn [toks app]. lexFixed. rewrite close_run by reflexivity. destruct (run (sGap true) (String c rest)) as [us u]. unfold pre. cbn [fst snd finish]. rewrite app_nil_r, <- !app_assoc. reflexivity.
Qed.
Lemma hole_int : forall a ts, hole a ts -> hole (join ["int("; a; ")"]) (tkId "int" :: tkOp "(" :: ts ++ [tkOp ")"]).
Proof.
  intros a ts H. apply (hole_pieces [Fix_ "int("; Hole a ts; Fix_ ")"]); [holes|]. intros st c rest O C. cbn [fits toks app fixedNext].
  rewrite open_fix by (try exact O; reflexivity). destruct (snd (finish st)); lexFixed; (split; [reflexivity|]);
  rewrite close_run by reflexivity; destruct (run (sGap true) (String c rest)) as [us u]; unfold pre; cbn [fst snd finish]; rewrite app_nil_r, <- !app_assoc; cbn [app]; rewrite <- !app_assoc; reflexivity.
Qed.
Lemma minus_num : forall b s z c rest, isNum s z -> alnum c = false ->
  run (sOp b "-") (s ++ String c rest)%string = pre [tkOp "-"; tkNum s] (run (sGap true) (String c rest)).
Proof.
  intros b s z c rest N C. assert (X : run (sOp b "-") (s ++ String c rest)%string = pre [tkOp "-"] (run (sGap false) (s ++ String c rest)%string)).
  { destruct N as (a & s' & -> & D & _). cbn [append]. apply restart_run. destruct a as [[] [] [] [] [] [] [] []]; vm_compute in D; try discriminate D; reflexivity. }
  rewrite X, (hole_num _ _ N) by (try reflexivity; assumption). now rewrite pre_pre.
Qed.
Lemma hole_minus : forall s z, isNum s z -> hole (join ["len(cur)-"; s]) [tkId "len"; tkOp "("; tkId "cur"; tkOp ")"; tkOp "-"; tkNum s].
Proof.
  intros s z N st c rest O C. cbn [join]. rewrite append_nil, append_assoc. rewrite run_app. rewrite open_fix by (try exact O; reflexivity).
  destruct (snd (finish st)); lexFixed; cbn [pre fst snd]; rewrite (minus_num _ _ _ _ _ N C), pre_pre; rewrite <- app_assoc; reflexivity.
Qed.
Lemma hole_neg : forall s z, isNum s z -> hole (String "-" s) [tkOp "-"; tkNum s].
Proof.
  intros s z N st c rest O C. cbn [append]. rewrite open_fix by (try exact O; reflexivity). rewrite run_cons. cbn [step]. 
  change (start (snd (finish st)) "-"%char) with (@nil token, sOp (snd (finish st)) "-"). cbn [fst snd]. rewrite pre_nil, (minus_num _ _ _ _ _ N C), pre_pre. reflexivity.
Qed.
