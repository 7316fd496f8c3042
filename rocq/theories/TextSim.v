(** Proofs that the text of generated statements means the statements of GenModel.v. *)
From Coq Require Import ZArith String Ascii List Bool Lia.
From Verif Require Import Base Ast IntervalsModel InspectModel InspectSpec GoLang GenModel GenCheck GoTypes CompileCheck GenPrint GenSimBody GoText TextModel TextLex TextParse.
From Verif Require GenSimProg.
Import ListNotations.
Open Scope string_scope.
Open Scope list_scope.
Open Scope Z_scope.

(** ** Expressions *)

(** The text [s] is an operand that means [e]. *)
Definition primS (s : string) (e : expr) : Prop := exists ts x, hole s ts /\ prim ts x /\ exprOf x = Some e.
(** The text [s] is a place that means [l]. *)
Definition lvalS (s : string) (l : lval) : Prop :=
  exists ts x, hole s ts /\ idStart ts = true /\ prim ts x /\ lvalOf x = Some l /\ exprOf x = Some (lexpr l).
(** The text [s] is a type that means [g]. *)
Definition typeS (s : string) (g : gtype) : Prop := exists ts t, hole s ts /\ readsT ts t /\ typeOf t = Some g.
(** The text [s] is an expression that means [e] between operators of precedence below [c]. *)
Definition exprS (c : nat) (s : string) (e : expr) : Prop :=
  exists ts x, hole s ts /\ (forall prec, (prec <= c)%nat -> readsM prec c ts x) /\ exprOf x = Some e.

Lemma fresh_name : forall x, goName x = true -> ~ In x usedNames -> fresh x = true.
Proof.
  intros x G N. unfold fresh. apply andb_true_intro. split.
  - apply negb_true_iff. unfold inb. destruct (existsb (String.eqb x) plainNames) eqn:E; auto. exfalso. apply N.
    apply existsb_exists in E as (y & I & E). apply String.eqb_eq in E. subst y. exact I.
  - destruct x as [|c x]; [discriminate G|]. cbn [goName] in G. now apply andb_prop in G as [_ G].
Qed.
Lemma fresh_not_nil : forall x, fresh x = true -> String.eqb x "nil" = false.
Proof. intros x F. destruct (String.eqb_spec x "nil"); auto. subst. discriminate F. Qed.
Lemma exprOf_name : forall x, fresh x = true -> exprOf (XName x) = Some (EVar x).
Proof. intros x F. cbn [exprOf]. rewrite (fresh_not_nil _ F). now rewrite F. Qed.
Lemma exprOf_bin : forall o op a b ea eb, opOf o = Some op -> exprOf a = Some ea -> exprOf b = Some eb -> eb <> ENil -> exprOf (XBin o a b) = Some (EBin op ea eb).
Proof.
  intros o op a b ea eb O A B N. destruct b;
    try (match goal with |- exprOf (XBin _ _ ?b) = _ =>
           change (('x <-? exprOf a ;; 'y <-? exprOf b ;; 'p <-? opOf o ;; Some (EBin p x y)) = Some (EBin op ea eb)); rewrite A, B, O; reflexivity end).
  cbn [exprOf] in *. rewrite A.
  destruct (String.eqb_spec x "nil") as [->|NE]; [congruence|]. rewrite andb_false_r. destruct (fresh x) eqn:F; [|discriminate]. injection B as <-. now rewrite O.
Qed.

Lemma lval_prim : forall s l, lvalS s l -> primS s (lexpr l).
Proof. intros s l (ts & x & H & _ & P & _ & E). exists ts, x. auto. Qed.
Lemma num_prim : forall s z, isNum s z -> primS s (EInt z).
Proof. intros s z N. exists [tkNum s], (XNum s). split; [eapply hole_num; eauto|]. split; [apply prim_num|]. destruct N as (? & ? & _ & _ & _ & E). cbn [exprOf]. now rewrite E. Qed.
Lemma prim_expr : forall s e c, (c <= 5)%nat -> primS s e -> exprS c s e.
Proof.
  intros s e c L (ts & x & H & P & E). exists ts, x. split; auto. split; auto. intros prec LP.
  destruct (M_prim ts x prec P) as (S1 & d & k & K). split; auto. exists d, k. intros n rest L1 N1 O1. apply K; auto. lia.
Qed.

Lemma lval_var : forall x, goName x = true -> fresh x = true -> lvalS x (LVar x).
Proof. intros x G F. exists [tkId x], (XName x). split; [now apply hole_name|]. split; [reflexivity|]. split; [apply prim_name|]. split; [cbn [lvalOf]; now rewrite F|now apply exprOf_name]. Qed.
Lemma idStart_app : forall ts us, idStart ts = true -> idStart (ts ++ us) = true.
Proof. intros [|[]]; cbn; auto; discriminate. Qed.
Lemma lval_sel : forall s l f, lvalS s l -> goName f = true -> lvalS (join [s; "."; f]) (LField l f).
Proof.
  intros s l f (ts & x & H & I & P & L & E) G. exists (ts ++ [tkOp "."; tkId f]), (XSel x f).
  split; [now apply hole_sel|]. split; [now apply idStart_app|]. split; [now apply prim_sel|]. split; [cbn [lvalOf]; now rewrite L|cbn [exprOf lexpr]; now rewrite E].
Qed.
Lemma lval_idx : forall s l, lvalS s l -> lvalS (join [s; "[idx]"]) (LIdx l (EVar "idx")).
Proof.
  intros s l (ts & x & H & I & P & L & E). exists (ts ++ [tkOp "["; tkId "idx"; tkOp "]"]), (XIndex x (XName "idx")).
  split; [now apply hole_idx|]. split; [now apply idStart_app|]. split.
  - apply (prim_index ts x [tkId "idx"] (XName "idx")); auto. apply E_prim; [apply prim_name|lia].
  - split; [cbn [lvalOf]; now rewrite L|cbn [exprOf lexpr]; now rewrite E].
Qed.
Lemma prim_int : forall s e, primS s e -> primS (join ["int("; s; ")"]) (EToInt e).
Proof.
  intros s e (ts & x & H & P & E). eexists _, (XCall (XName "int") [x]). split; [apply hole_int; exact H|]. split.
  - apply (prim_call [tkId "int"] (XName "int") ts [x]); [apply prim_name|]. apply A_one. apply E_prim; auto. lia.
  - cbn. now rewrite E.
Qed.
Lemma int_expr : forall z, exprS 5 (showZ z) (EInt z).
Proof.
  intros z. destruct (Z.ltb_spec z 0) as [N|N].
  - rewrite showZ_neg by auto. pose proof (num_show (- z) ltac:(lia)) as IN. exists [tkOp "-"; tkNum (showZ (- z))], (XUn "-" (XNum (showZ (- z)))).
    split; [eapply hole_neg; exact IN|]. split.
    + intros prec LP. apply M_un; [reflexivity|apply prim_num].
    + destruct IN as (? & ? & _ & _ & _ & E). cbn [exprOf]. rewrite E. cbn. f_equal. f_equal. lia.
  - apply prim_expr; [lia|]. apply num_prim. now apply num_show.
Qed.

Lemma hole_bin : forall o a ts b us, hole a ts -> hole b us -> run (sGap true) o = (fst (run (sGap true) o), sGap false) -> alnum (match o with String c _ => c | _ => "0"%char end) = false ->
  hole (join [a; o; b]) (ts ++ fst (run (sGap true) o) ++ us).
Proof.
  intros o a ts b us H1 H2 R A. destruct o as [|c0 o]; [discriminate A|]. change (alnum c0 = false) in A.
  apply (hole_pieces [Hole a ts; Fix_ (String c0 o); Hole b us]); [holes|]. intros st c rest O C. cbn [fits toks app fixedNext].
  rewrite O, A, C. rewrite R. cbn [fst snd opener negb andb finish]. split; [reflexivity|]. unfold pre. cbn [fst snd].
  destruct (run (sGap true) (String c rest)) as [ws u]. cbn [fst snd]. rewrite app_nil_r, <- !app_assoc. reflexivity.
Qed.
Lemma weakM : forall prec c c' ts x, readsM prec c ts x -> (c' <= c)%nat -> readsM prec c' ts x.
Proof. intros prec c c' ts x (S1 & d & k & K) L. split; auto. exists d, k. intros n rest L1 N1 O1. apply K; auto. lia. Qed.
Lemma expr_bin : forall o op w a e1 b e2 c1 c2, opOf o = Some op -> run (sGap true) w = ([tkOp o], sGap false) -> alnum (match w with String c _ => c | _ => "0"%char end) = false ->
  exprS c1 a e1 -> exprS c2 b e2 -> e2 <> ENil -> (1 <= precOf o)%nat -> (precOf o <= c1)%nat -> (S (precOf o) <= c2)%nat ->
  exprS (precOf o) (join [a; w; b]) (EBin op e1 e2).
Proof.
  intros o op w a e1 b e2 c1 c2 O W A (ts & x & H1 & M1 & E1) (us & y & H2 & M2 & E2) N L1 L2 L3.
  exists (ts ++ tkOp o :: us), (XBin o x y). split; [|split].
  - replace (ts ++ tkOp o :: us) with (ts ++ fst (run (sGap true) w) ++ us) by now rewrite W. apply hole_bin; auto. now rewrite W.
  - intros prec LP. eapply M_bin; [apply M1; lia|eapply E_M; [apply M2; exact L3|lia]|lia|lia|lia].
  - now apply exprOf_bin.
Qed.
Lemma expr_paren : forall c a e, (1 <= c)%nat -> exprS c a e -> primS (join ["("; a; ")"]) (EParen e).
Proof.
  intros c a e L (ts & x & H & M & E). exists (tkOp "(" :: ts ++ [tkOp ")"]), (XParen x). split; [|split].
  - apply (hole_pieces [Fix_ "("; Hole a ts; Fix_ ")"]); [holes|]. intros st c0 rest O C.
    assert (X : run st "(" = (fst (finish st), sOp (snd (finish st)) "(")).
    { rewrite open_fix by (try exact O; reflexivity). cbn [run]. unfold pre. cbn. now rewrite app_nil_r. }
    cbn [fits toks app fixedNext]. rewrite X. cbn [fst snd opener negb alnum andb finish]. split.
    + reflexivity.
    + change (run (sGap true) ")") with (@nil token, sOp true ")"). cbn [fst snd]. rewrite close_run by reflexivity.
      destruct (run (sGap true) (String c0 rest)) as [ws u]. unfold pre. cbn [fst snd app]. rewrite <- !app_assoc. cbn [app]. rewrite <- !app_assoc, app_nil_r. reflexivity.
  - apply prim_paren. eapply E_M; [apply M; exact L|lia].
  - cbn [exprOf]. now rewrite E.
Qed.

Section Conditions.
Variable r : resolver.
Lemma integer_text : forall i z, integerOf r i = Ok z -> integerS r i = Ok (showZ z).
Proof. intros i z H. unfold integerS. now rewrite H. Qed.
Lemma clause_text : forall v ev g e, primS v ev -> ev <> ENil -> clauseOf r ev g = Ok e -> exists s, clauseS r v g = Ok s /\ exprS 3 s e /\ e <> ENil.
Proof.
  intros v ev g e P N C. unfold clauseOf, clauseS in *. destruct (rhigh g) as [h|].
  - apply bind_ok in C as (l & Hl & C). apply bind_ok in C as (u & Hu & C). injection C as <-.
    rewrite (integer_text _ _ Hl), (integer_text _ _ Hu). cbn [bind]. eexists. split; [reflexivity|]. split; [|discriminate].
    apply prim_expr; [lia|].
    assert (E1 : exprS 3 (join [showZ l; " <= "; v]) (EBin BLe (EInt l) ev)).
    { apply (expr_bin "<=" BLe " <= ") with (c1 := 5%nat) (c2 := 5%nat); first [reflexivity|discriminate|assumption|apply int_expr|apply prim_expr; [lia|assumption]|cbn; lia]. }
    assert (E2 : exprS 3 (join [v; " <= "; showZ u]) (EBin BLe ev (EInt u))).
    { apply (expr_bin "<=" BLe " <= ") with (c1 := 5%nat) (c2 := 5%nat); first [reflexivity|discriminate|assumption|apply int_expr|apply prim_expr; [lia|assumption]|cbn; lia]. }
    pose proof (expr_bin "&&" BAnd " && " _ _ _ _ 3 3 eq_refl eq_refl eq_refl E1 E2 ltac:(discriminate) ltac:(cbn; lia) ltac:(cbn; lia) ltac:(cbn; lia)) as E3.
    apply expr_paren in E3; [|cbn; lia].
    match goal with |- primS ?a _ => replace a with (join ["("; join [join [showZ l; " <= "; v]; " && "; join [v; " <= "; showZ u]]; ")"]); [exact E3|] end.
    cbn [join]. rewrite !append_nil, !append_assoc. cbn [append]. reflexivity.
  - apply bind_ok in C as (l & Hl & C). injection C as <-. rewrite (integer_text _ _ Hl). cbn [bind]. eexists. split; [reflexivity|]. split; [|discriminate].
    apply (expr_bin "==" BEq " == ") with (c1 := 5%nat) (c2 := 5%nat); first [reflexivity|discriminate|assumption|apply int_expr|apply prim_expr; [lia|assumption]|cbn; lia].
Qed.
Lemma or_join : forall cs es, Forall2 (fun c e => exprS 3 c e /\ e <> ENil) cs es -> exists ts xs,
  (forall s0 ts0, hole s0 ts0 -> hole (joinOrS (s0 :: cs)) (ts0 ++ ts)) /\
  (forall ts0 x0 prec, (prec <= 1)%nat -> readsM prec 1 ts0 x0 -> readsM prec 1 (ts0 ++ ts) (fold_left (XBin "||") xs x0)) /\
  (forall x0 e0, exprOf x0 = Some e0 -> exprOf (fold_left (XBin "||") xs x0) = Some (fold_left (fun a b => EBin BOr a b) es e0)) .
Proof.
  induction 1 as [|c e cs es E F IH].
  - exists [], []. split; [|split]; cbn [fold_left]; auto; intros; rewrite app_nil_r; auto.
  - destruct IH as (ts & xs & I1 & I2 & I3). destruct E as [(us & y & H & M & EY) N].
    exists (tkOp "||" :: us ++ ts), (y :: xs). split; [|split].
    + intros s0 ts0 H0. cbn [joinOrS]. apply (hole_bin " || " s0 ts0 (joinOrS (c :: cs)) (us ++ ts)); auto.
    + intros ts0 x0 prec LP M0. cbn [fold_left]. change (tkOp "||" :: us ++ ts) with ((tkOp "||" :: us) ++ ts). rewrite app_assoc. apply I2; auto.
      apply (M_bin prec 1 ts0 x0 "||" us y); auto; cbn; try lia. eapply E_M; [apply M; lia|lia].
    + intros x0 e0 E0. cbn [fold_left]. apply I3. apply exprOf_bin; auto.
Qed.
Lemma conditional_text : forall v ev l c, primS v ev -> ev <> ENil -> l <> [] -> conditional r ev l = Ok c -> exists s, conditionalS r v l = Ok s /\ exprS 1 s c /\ c <> ENil.
Proof.
  intros v ev l c P N NE C. unfold conditional, conditionalS in *. apply bind_ok in C as (es & M & C). injection C as <-.
  assert (X : exists cs, mapM (clauseS r v) l = Ok cs /\ Forall2 (fun c e => exprS 3 c e /\ e <> ENil) cs es).
  { clear NE. revert es M. induction l as [|g l IH]; intros es M; cbn [mapM] in *; [injection M as <-; exists []; auto|].
    apply bind_ok in M as (e & H1 & M). apply bind_ok in M as (es' & H2 & M). injection M as <-.
    destruct (clause_text v ev g e P N H1) as (s & S1 & S2). destruct (IH es' H2) as (cs & C1 & C2). rewrite S1, C1. cbn [bind]. eauto. }
  destruct X as (cs & -> & F). cbn [bind]. eexists. split; [reflexivity|].
  destruct F as [|c e cs es [(us & y & H & MM & EY) N1] F].
  { destruct l as [|g l]; [congruence|]. cbn [mapM] in M. apply bind_ok in M as (? & _ & M). apply bind_ok in M as (? & _ & M). discriminate M. }
  destruct (or_join cs es F) as (ts & xs & I1 & I2 & I3). split.
  - exists (us ++ ts), (fold_left (XBin "||") xs y). split; [now apply I1|]. split.
    + intros prec LP. apply I2; auto. eapply weakM; [apply MM; lia|lia].
    + unfold joinOr. now apply I3.
  - unfold joinOr. clear - N1. revert e N1. induction es as [|e' es IH]; intros e N1; cbn [fold_left]; auto. apply IH. discriminate.
Qed.
End Conditions.

(** ** Statements *)

(** The lines [s] mean the statements [ss]. *)
Definition spells (s : string) (ss : list stmt) : Prop :=
  exists ts ys, run (sGap false) s = (ts, sGap false) /\ stm ts ys /\ stmtsOf ys = Some ss.

Lemma all_app : forall A B (f : A -> option B) l m, all f (l ++ m) = 'x <-? all f l ;; 'y <-? all f m ;; Some (x ++ y).
Proof.
  intros A B f. induction l as [|a l IH]; intros m; cbn [app all]; [now destruct (all f m)|].
  destruct (f a); [|reflexivity]. rewrite IH. destruct (all f l); [|reflexivity]. now destruct (all f m).
Qed.
Lemma spells_nil : spells "" [].
Proof. exists [], []. split; [reflexivity|]. split; [apply stm_nil|reflexivity]. Qed.
Lemma spells_cat : forall a ss b tt, spells a ss -> spells b tt -> spells (a ++ b)%string (ss ++ tt).
Proof.
  intros a ss b tt (ts & ys & R1 & S1 & E1) (us & zs & R2 & S2 & E2). exists (ts ++ us), (ys ++ zs). split; [|split].
  - rewrite run_app, R1. cbn [fst snd]. rewrite R2. reflexivity.
  - now apply stm_app.
  - unfold stmtsOf in *. rewrite all_app, E1, E2. reflexivity.
Qed.
Lemma spells_cons : forall a ss l tt, spells a ss -> spells (join l) tt -> spells (join (a :: l)) (ss ++ tt).
Proof. intros. now apply spells_cat. Qed.
Lemma spells_cons1 : forall a x l tt, spells a [x] -> spells (join l) tt -> spells (join (a :: l)) (x :: tt).
Proof. intros a x l tt H1 H2. exact (spells_cat a [x] _ _ H1 H2). Qed.
Lemma spells_split1 : forall l x m tt, spells (join l) [x] -> spells (join m) tt -> spells (join (l ++ m)) (x :: tt).
Proof. intros l x m tt H1 H2. rewrite join_app. exact (spells_cat _ [x] _ _ H1 H2). Qed.
Lemma spells_split : forall l ss m tt, spells (join l) ss -> spells (join m) tt -> spells (join (l ++ m)) (ss ++ tt).
Proof. intros. rewrite join_app. now apply spells_cat. Qed.
Lemma spells_one : forall a ss, spells a ss -> spells (join [a]) ss.
Proof. intros a ss H. cbn [join]. now rewrite append_nil. Qed.

Lemma spell_line : forall ps ts y s, Forall good ps -> fits (sGap false) ps = true -> toks (sGap false) ps = (ts ++ [tkOp ";"], sGap false) ->
  oneS ts y -> stmtOf y = Some s -> spells (flat ps) [s].
Proof.
  intros ps ts y s G F T O E. exists (ts ++ [tkOp ";"]), [y]. split; [rewrite run_pieces; auto|]. split; [now apply stm_one|].
  unfold stmtsOf. cbn [all]. now rewrite E.
Qed.
Definition spelt (ts : list token) (ss : list stmt) : Prop := exists ys, stm ts ys /\ stmtsOf ys = Some ss.

Definition bodyOf := fix body (l : list gs) : option (list stmt) :=
    match l with [] => Some [] | x :: l' => 'y <-? stmtOf x ;; 'ys <-? body l' ;; Some (y :: ys) end.
Lemma bodyOf_eq : forall l, bodyOf l = stmtsOf l.
Proof. unfold stmtsOf. induction l as [|x l IH]; cbn; [reflexivity|]. now rewrite IH. Qed.
Lemma of_if : forall c b a ss, exprOf c = Some a -> stmtsOf b = Some ss -> stmtOf (YIf c b) = Some (SIf a ss).
Proof. intros c b a ss A B. cbn [stmtOf]. fold bodyOf. now rewrite A, bodyOf_eq, B. Qed.
Lemma of_block : forall b ss, stmtsOf b = Some ss -> stmtOf (YBlock b) = Some (SBlock ss).
Proof. intros b ss B. cbn [stmtOf]. fold bodyOf. now rewrite bodyOf_eq, B. Qed.
Lemma of_while : forall c b a ss, exprOf c = Some a -> stmtsOf b = Some ss -> stmtOf (YWhile c b) = Some (SWhile a ss).
Proof. intros c b a ss A B. cbn [stmtOf]. fold bodyOf. now rewrite A, bodyOf_eq, B. Qed.
Lemma of_for : forall x e b a ss, fresh x = true -> exprOf e = Some a -> stmtsOf b = Some ss ->
  stmtOf (YFor (YAssign ":=" [XName x] [XNum "0"]) (XBin "<" (XName x) e) (YInc (XName x)) b) = Some (SForLt x a ss).
Proof. intros x e b a ss F A B. cbn [stmtOf]. fold bodyOf. rewrite F, !String.eqb_refl. cbn [andb]. now rewrite A, bodyOf_eq, B. Qed.

Ltac lexFits := unfold nl; cbn [fits fixedNext]; lexFixed; reflexivity.
Ltac lexToks := unfold nl; cbn [toks]; lexFixed; unfold pre; cbn [fst snd finish]; repeat (rewrite ?app_nil_r, <- ?app_assoc; cbn [app]); reflexivity.

(** Errors. *)
Definition errToks (m : string) : list token :=
  [tkKey "return"; tkId "nil"; tkOp ","; tkId "errors"; tkOp "."; tkId "New"; tkOp "("; tkStr m; tkOp ")"].
Definition errTree (m : string) : gs := YReturn [XName "nil"; XCall (XSel (XName "errors") "New") [XStr m]].
Lemma err_one : forall m, oneS (errToks m) (errTree m).
Proof.
  intros m. apply S_return. apply (L_cons [tkId "nil"]); [apply E_prim; [apply prim_name|lia]|]. apply L_one. apply E_prim; [|lia].
  apply (prim_call [tkId "errors"; tkOp "."; tkId "New"] _ [tkStr m]).
  - apply (prim_sel [tkId "errors"]). apply prim_name.
  - apply A_one. apply E_prim; [apply prim_str|lia].
Qed.
Lemma err_means : forall m, stmtsOf [errTree m] = Some [retErr m].
Proof. reflexivity. Qed.

Lemma prim_lencur : prim [tkId "len"; tkOp "("; tkId "cur"; tkOp ")"] (XCall (XName "len") [XName "cur"]).
Proof. apply (prim_call [tkId "len"] (XName "len") [tkId "cur"]); [apply prim_name|]. apply A_one. apply E_prim; [apply prim_name|lia]. Qed.
Lemma lengthCheck_text : forall s e, primS s e -> e <> ENil -> spells (lengthCheckS s) [lengthCheck e].
Proof.
  intros s e (ts & x & H & P & E) N.
  apply (spell_line [Fix_ "if len(cur) < "; Hole s ts; Fix_ " { return nil, errors.New(""data too short"") }"; Fix_ nl]
    (tkKey "if" :: ([tkId "len"; tkOp "("; tkId "cur"; tkOp ")"] ++ tkOp "<" :: ts) ++ (tkOp "{" :: errToks "data too short" ++ [tkOp "}"])) (YIf (XBin "<" (XCall (XName "len") [XName "cur"]) x) [errTree "data too short"])).
  - holes.
  - lexFits.
  - lexToks.
  - apply S_if.
    + eapply E_M; [eapply (M_bin 1 5 [tkId "len"; tkOp "("; tkId "cur"; tkOp ")"])|]; try (cbn; lia); [apply M_prim; apply prim_lencur|apply E_prim; [exact P|cbn; lia]].
    + apply blk_one. apply err_one.
  - apply of_if; [|apply err_means]. now apply exprOf_bin.
Qed.

Lemma of_assign : forall x y l e, lvalOf x = Some l -> exprOf y = Some e -> stmtOf (YAssign "=" [x] [y]) = Some (SAssign l e).
Proof. intros x y l e L E. cbn. rewrite L, E. now destruct x. Qed.
Lemma of_decl : forall x y e, fresh x = true -> exprOf y = Some e -> stmtOf (YAssign ":=" [XName x] [y]) = Some (SDecl x e).
Proof. intros x y e L E. cbn. now rewrite L, E. Qed.
Lemma one_assign : forall o ls l rs y, inb o ["="; ":="] = true -> idStart ls = true -> prim ls l -> prim rs y -> oneS (ls ++ tkOp o :: rs) (YAssign o [l] [y]).
Proof. intros. apply S_assign; auto; apply L_one; apply E_prim; auto; lia. Qed.
Ltac prims := repeat first [apply prim_lencur | apply prim_name | apply prim_num | apply prim_str | assumption].

Lemma assertEnd_text : spells assertEndS [assertEnd].
Proof.
  apply (spell_line [Fix_ "if len(cur) > 0 { return nil, errors.New(""trailing data disallowed"") }"; Fix_ nl]
    (tkKey "if" :: ([tkId "len"; tkOp "("; tkId "cur"; tkOp ")"] ++ tkOp ">" :: [tkNum "0"]) ++ (tkOp "{" :: errToks "trailing data disallowed" ++ [tkOp "}"])) (YIf (XBin ">" (XCall (XName "len") [XName "cur"]) (XNum "0")) [errTree "trailing data disallowed"])).
  - holes.
  - lexFits.
  - lexToks.
  - apply S_if.
    + eapply E_M; [eapply (M_bin 1 5 [tkId "len"; tkOp "("; tkId "cur"; tkOp ")"])|]; try (cbn; lia); [apply M_prim; apply prim_lencur|apply E_prim; [prims|cbn; lia]].
    + apply blk_one. apply err_one.
  - reflexivity.
Qed.

Lemma from_line : forall s e, primS s e -> spells (join ["cur = cur["; s; ":]"; nl]) [SAssign (LVar "cur") (EFrom cur e)].
Proof.
  intros s e (ts & x & H & P & E).
  apply (spell_line [Fix_ "cur = cur["; Hole s ts; Fix_ ":]"; Fix_ nl] ([tkId "cur"] ++ tkOp "=" :: ([tkId "cur"] ++ tkOp "[" :: ts ++ [tkOp ":"; tkOp "]"])) (YAssign "=" [XName "cur"] [XSlice (XName "cur") (Some x) None])).
  - holes.
  - lexFits.
  - lexToks.
  - apply one_assign; prims; try reflexivity. apply prim_from; [prims|]. apply E_prim; auto. lia.
  - apply of_assign; [reflexivity|]. cbn [exprOf]. rewrite E. reflexivity.
Qed.

Lemma zero_line : forall s l, lvalS s l -> spells (join [s; " = cur[0]"; nl]) [SAssign l (EIdx cur (EInt 0))].
Proof.
  intros s l (ts & x & H & I & P & L & E).
  apply (spell_line [Hole s ts; Fix_ " = cur[0]"; Fix_ nl] (ts ++ tkOp "=" :: [tkId "cur"; tkOp "["; tkNum "0"; tkOp "]"]) (YAssign "=" [x] [XIndex (XName "cur") (XNum "0")])).
  - holes.
  - lexFits.
  - lexToks.
  - apply one_assign; prims; try reflexivity; auto. apply (prim_index [tkId "cur"] _ [tkNum "0"]); [prims|]. apply E_prim; [prims|lia].
  - apply of_assign; auto.
Qed.
Lemma big_line : forall s l sz, lvalS s l -> sz = 16 \/ sz = 32 \/ sz = 64 -> spells (join [s; " = binary.BigEndian.Uint"; showZ sz; "(cur)"; nl]) [SAssign l (EBigEndian sz cur)].
Proof.
  intros s l sz (ts & x & H & I & P & L & E) C.
  set (u := ("Uint" ++ showZ sz)%string).
  assert (X : join [s; " = binary.BigEndian.Uint"; showZ sz; "(cur)"; nl] = join [s; (" = binary.BigEndian.Uint" ++ showZ sz ++ "(cur)")%string; nl]).
  { cbn [join]. rewrite !append_assoc. reflexivity. }
  rewrite X.
  apply (spell_line [Hole s ts; Fix_ (" = binary.BigEndian.Uint" ++ showZ sz ++ "(cur)")%string; Fix_ nl]
    (ts ++ tkOp "=" :: (([tkId "binary"; tkOp "."; tkId "BigEndian"] ++ [tkOp "."; tkId u]) ++ tkOp "(" :: [tkId "cur"] ++ [tkOp ")"])) (YAssign "=" [x] [XCall (XSel (XSel (XName "binary") "BigEndian") u) [XName "cur"]])).
  - holes.
  - unfold nl. cbn [fits]. destruct C as [->|[->| ->]]; vm_compute; reflexivity.
  - assert (Y : run (sGap true) (" = binary.BigEndian.Uint" ++ showZ sz ++ "(cur)")%string = ([tkOp "="; tkId "binary"; tkOp "."; tkId "BigEndian"; tkOp "."; tkId u; tkOp "("; tkId "cur"], sOp true ")")).
    { destruct C as [->|[->| ->]]; vm_compute; reflexivity. }
    cbn [toks]. rewrite Y. cbn [fst snd]. lexToks.
  - apply one_assign; prims; try reflexivity; auto. apply prim_call; [|apply A_one; apply E_prim; [prims|lia]]. apply prim_sel. apply (prim_sel [tkId "binary"]). prims.
  - apply of_assign; auto. destruct C as [->|[->| ->]]; vm_compute; reflexivity.
Qed.

Lemma constraint_line : forall s c m, exprS 1 s c -> m = "integer constraint violated" ->
  spells (join ["if !("; s; ") {"; nl; "return nil, errors.New(""integer constraint violated"")"; nl; "}"; nl]) [SIf (ENot (EParen c)) [retErr m]].
Proof.
  intros s c m (ts & x & H & M & E) ->.
  apply (spell_line [Fix_ "if !("; Hole s ts; Fix_ ") {"; Fix_ nl; Fix_ "return nil, errors.New(""integer constraint violated"")"; Fix_ nl; Fix_ "}"; Fix_ nl]
    (tkKey "if" :: (tkOp "!" :: (tkOp "(" :: ts ++ [tkOp ")"])) ++ (tkOp "{" :: (errToks "integer constraint violated" ++ [tkOp ";"]) ++ [tkOp "}"])) (YIf (XUn "!" (XParen x)) [errTree "integer constraint violated"])).
  - holes.
  - lexFits.
  - lexToks.
  - apply S_if.
    + eapply E_M; [apply M_un; [reflexivity|]|lia]. apply prim_paren. eapply E_M; [apply M; lia|lia].
    + apply blk_stm. apply stm_one. apply err_one.
  - apply of_if; [|apply err_means]. cbn [exprOf String.eqb Ascii.eqb Bool.eqb]. now rewrite E.
Qed.

Lemma int_text : forall r s l sz cst ss, lvalS s l -> goodSize sz = true -> match cst with Some l0 => l0 <> [] | None => True end -> parseIntType r l sz cst = Ok ss ->
  exists t, parseIntTypeS r s sz cst = Ok t /\ spells t ss.
Proof.
  intros r s l sz cst ss V G C P. unfold parseIntType, parseIntTypeS in *. apply bind_ok in P as (ck & Hc & P). injection P as <-.
  assert (SZ : sz = 8 \/ sz = 16 \/ sz = 32 \/ sz = 64) by (unfold goodSize in G; lia).
  match goal with |- context [bind ?m _] => assert (X : exists t, m = Ok t /\ spells t ck) end.
  { destruct cst as [l0|]; [|injection Hc as <-; exists ""; split; auto; apply spells_nil].
    apply bind_ok in Hc as (c & Hc & Hk). injection Hk as <-. destruct (conditional_text r s (lexpr l) l0 c (lval_prim _ _ V)) as (t & T1 & T2 & _); auto; [destruct l; discriminate|].
    rewrite T1. cbn [bind]. eexists. split; [reflexivity|]. now apply constraint_line. }
  destruct X as (t & -> & T). cbn [bind]. eexists. split; [reflexivity|].
  assert (N : primS (showZ (sz / 8)) (EInt (sz / 8))) by (apply num_prim; apply num_show; destruct SZ as [->|[->|[->| ->]]]; vm_compute; discriminate).
  apply spells_cons1; [apply lengthCheck_text; [auto|discriminate]|]. apply spells_cons1; [|apply spells_cons; [exact T|apply spells_one; apply from_line; exact N]].
  destruct SZ as [->|SZ]; [now apply zero_line|]. replace (sz / 8 =? 1) with false by (destruct SZ as [->|[->| ->]]; reflexivity). now apply big_line.
Qed.

(** ** Types *)

Lemma run_open : forall st c, opener st = true -> inb (one c) ["("; "["; "*"] = true -> run st (one c) = (fst (finish st), sOp (snd (finish st)) (one c)).
Proof.
  intros st c O I. assert (X : c = "("%char \/ c = "["%char \/ c = "*"%char).
  { unfold inb in I. cbn [existsb] in I. rewrite !orb_true_iff in I. destruct I as [I|[I|[I|I]]]; try discriminate; apply String.eqb_eq in I; injection I as ->; auto. }
  destruct X as [->|[->| ->]]; unfold one; (rewrite open_fix by (try exact O; reflexivity)); unfold pre; cbn; now rewrite app_nil_r.
Qed.
Lemma name_type : forall x g, goName x = true -> typeOf (XName x) = Some g -> typeS x g.
Proof. intros x g G T. exists [tkId x], (XName x). split; [now apply hole_name|]. split; [apply T_name|exact T]. Qed.
Ltac holeEnd c rest := destruct (run (sGap true) (String c rest)); unfold pre; cbn [fst snd app finish]; repeat (rewrite ?app_nil_r, <- ?app_assoc; cbn [app]); reflexivity.
Lemma ptr_type : forall x, goName x = true -> fresh x = true -> typeS (join ["*"; x]) (GPtr x).
Proof.
  intros x G F. exists [tkOp "*"; tkId x], (XUn "*" (XName x)). split; [|split; [apply T_ptr; apply T_name|cbn; now rewrite F]].
  apply (hole_pieces [Fix_ "*"; Hole x [tkId x]]); [holes|]. intros st c rest O C. pose proof (run_open st "*" O eq_refl) as X. unfold one in X.
  cbn [fits toks app fixedNext]. rewrite X. cbn [fst snd opener negb andb finish]. rewrite C. split; [reflexivity|]. holeEnd c rest.
Qed.
Lemma slice_type : forall s g, typeS s g -> typeS (join ["[]"; s]) (GSlice g).
Proof.
  intros s g (ts & t & H & R & T). exists (tkOp "[" :: tkOp "]" :: ts), (XSliceOf t). split; [|split; [now apply T_slice|cbn [typeOf]; now rewrite T]].
  apply (hole_pieces [Fix_ "["; Fix_ "]"; Hole s ts]); [holes|]. intros st c rest O C. pose proof (run_open st "[" O eq_refl) as X. unfold one in X.
  cbn [fits toks app fixedNext]. rewrite X. cbn [fst snd]. change (run (sOp (snd (finish st)) "[") "]") with ([tkOp "["], sOp false "]"). cbn [fst snd opener negb andb finish]. rewrite C. split; [reflexivity|]. holeEnd c rest.
Qed.
Lemma array_type : forall n z s g, isNum n z -> typeS s g -> typeS (join ["["; n; "]"; s]) (GArray z g).
Proof.
  intros n z s g N (ts & t & H & R & T). exists (tkOp "[" :: tkNum n :: tkOp "]" :: ts), (XArrayOf (XNum n) t).
  split; [|split; [now apply T_array|]]; [|destruct N as (? & ? & _ & _ & _ & E); cbn [typeOf]; now rewrite E, T].
  apply (hole_pieces [Fix_ "["; Hole n [tkNum n]; Fix_ "]"; Hole s ts]); [holes|]. intros st c rest O C. pose proof (run_open st "[" O eq_refl) as X. unfold one in X.
  cbn [fits toks app fixedNext]. rewrite X. cbn [fst snd]. change (run (sGap true) "]") with (@nil token, sOp true "]"). cbn [fst snd opener negb andb finish]. rewrite C. split; [reflexivity|]. holeEnd c rest.
Qed.

(** ** Lines of the generated methods *)

Lemma eq_prims : forall o ts x us y, prim ts x -> prim us y -> (1 <= precOf o)%nat -> readsE 1 (ts ++ tkOp o :: us) (XBin o x y).
Proof.
  intros o ts x us y P Q L. assert (U : (precOf o <= 5)%nat) by (unfold precOf; repeat match goal with |- context [if ?b then _ else _] => destruct b end; lia).
  eapply E_M; [eapply (M_bin 1 5 ts); [now apply M_prim|apply E_prim; [exact Q|lia]|lia|lia|lia]|lia].
Qed.
Lemma nul_line1 : spells (join ["i := bytes.IndexByte(cur, 0)"; nl]) [SDecl "i" (EIndexByte cur 0)].
Proof.
  apply (spell_line [Fix_ "i := bytes.IndexByte(cur, 0)"; Fix_ nl]
    ([tkId "i"] ++ tkOp ":=" :: ([tkId "bytes"; tkOp "."; tkId "IndexByte"] ++ tkOp "(" :: ([tkId "cur"] ++ tkOp "," :: [tkNum "0"]) ++ [tkOp ")"]))
    (YAssign ":=" [XName "i"] [XCall (XSel (XName "bytes") "IndexByte") [XName "cur"; XNum "0"]])).
  - holes.
  - lexFits.
  - lexToks.
  - apply one_assign; prims; try reflexivity. apply prim_call; [apply (prim_sel [tkId "bytes"]); prims|]. apply A_cons; [apply E_prim; [prims|lia]|]. apply A_one. apply E_prim; [prims|lia].
  - reflexivity.
Qed.
Lemma nul_line2 : spells (join ["if i < 0 { return nil, errors.New(""could not parse nul-term string"") }"; nl]) [SIf (EBin BLt (EVar "i") (EInt 0)) [retErr "could not parse nul-term string"]].
Proof.
  apply (spell_line [Fix_ "if i < 0 { return nil, errors.New(""could not parse nul-term string"") }"; Fix_ nl]
    (tkKey "if" :: ([tkId "i"] ++ tkOp "<" :: [tkNum "0"]) ++ (tkOp "{" :: errToks "could not parse nul-term string" ++ [tkOp "}"])) (YIf (XBin "<" (XName "i") (XNum "0")) [errTree "could not parse nul-term string"])).
  - holes.
  - lexFits.
  - lexToks.
  - apply S_if; [apply eq_prims; [prims|prims|cbn; lia]|]. apply blk_one. apply err_one.
  - reflexivity.
Qed.
Lemma nul_line3 : forall s l, lvalS s l -> spells (join [s; ", cur = string(cur[:i]), cur[i+1:]"; nl])
  [SAssign2 l (LVar "cur") (EStringOf (ETo cur (EVar "i"))) (EFrom cur (EBin BAdd (EVar "i") (EInt 1)))].
Proof.
  intros s l (ts & x & H & I & P & L & E).
  apply (spell_line [Hole s ts; Fix_ ", cur = string(cur[:i]), cur[i+1:]"; Fix_ nl]
    ((ts ++ tkOp "," :: [tkId "cur"]) ++ tkOp "=" :: (([tkId "string"] ++ tkOp "(" :: ([tkId "cur"] ++ tkOp "[" :: tkOp ":" :: [tkId "i"] ++ [tkOp "]"]) ++ [tkOp ")"])
        ++ tkOp "," :: ([tkId "cur"] ++ tkOp "[" :: ([tkId "i"] ++ tkOp "+" :: [tkNum "1"]) ++ [tkOp ":"; tkOp "]"])))
    (YAssign "=" [x; XName "cur"] [XCall (XName "string") [XSlice (XName "cur") None (Some (XName "i"))]; XSlice (XName "cur") (Some (XBin "+" (XName "i") (XNum "1"))) None])).
  - holes.
  - lexFits.
  - lexToks.
  - apply S_assign; [reflexivity|now apply idStart_app| |].
    + apply L_cons; [apply E_prim; [exact P|lia]|]. apply L_one. apply E_prim; [prims|lia].
    + apply L_cons; [|apply L_one]; (apply E_prim; [|lia]).
      * apply prim_call; [prims|]. apply A_one. apply E_prim; [|lia]. apply prim_to; [prims|]. apply E_prim; [prims|lia].
      * apply prim_from; [prims|]. apply eq_prims; [prims|prims|cbn; lia].
  - cbn. rewrite L. now destruct x.
Qed.
Lemma ptr_line : forall s l, lvalS s l -> spells (join [s; " = len(data) - len(cur)"; nl]) [SAssign l (EBin BSub (ELen (EVar "data")) (ELen cur))].
Proof.
  intros s l (ts & x & H & I & P & L & E).
  apply (spell_line [Hole s ts; Fix_ " = len(data) - len(cur)"; Fix_ nl]
    (ts ++ tkOp "=" :: (([tkId "len"] ++ tkOp "(" :: [tkId "data"] ++ [tkOp ")"]) ++ tkOp "-" :: [tkId "len"; tkOp "("; tkId "cur"; tkOp ")"]))
    (YAssign "=" [x] [XBin "-" (XCall (XName "len") [XName "data"]) (XCall (XName "len") [XName "cur"])])).
  - holes.
  - lexFits.
  - lexToks.
  - apply S_assign; [reflexivity|auto|apply L_one; apply E_prim; [exact P|lia]|]. apply L_one. apply eq_prims; [|prims|cbn; lia].
    apply prim_call; [prims|]. apply A_one. apply E_prim; [prims|lia].
  - apply of_assign; auto.
Qed.
Lemma err_var : spells (join ["var err error"; nl]) [SVar "err" GError].
Proof.
  apply (spell_line [Fix_ "var err error"; Fix_ nl] (tkKey "var" :: tkId "err" :: [tkId "error"]) (YVar "err" (XName "error"))).
  - holes.
  - lexFits.
  - lexToks.
  - apply S_var. apply T_name.
  - reflexivity.
Qed.
Lemma err_check : spells (join ["if err != nil { return nil, err }"; nl]) [SIf (ENotNil (EVar "err")) [SReturn ENil (EVar "err")]].
Proof.
  apply (spell_line [Fix_ "if err != nil { return nil, err }"; Fix_ nl]
    (tkKey "if" :: ([tkId "err"] ++ tkOp "!=" :: [tkId "nil"]) ++ (tkOp "{" :: (tkKey "return" :: ([tkId "nil"] ++ tkOp "," :: [tkId "err"])) ++ [tkOp "}"])) (YIf (XBin "!=" (XName "err") (XName "nil")) [YReturn [XName "nil"; XName "err"]])).
  - holes.
  - lexFits.
  - lexToks.
  - apply S_if; [apply eq_prims; [prims|prims|cbn; lia]|]. apply blk_one. apply S_return. apply L_cons; [apply E_prim; [prims|lia]|]. apply L_one. apply E_prim; [prims|lia].
  - reflexivity.
Qed.
Lemma new_prim : forall x, prim [tkId "new"; tkOp "("; tkId x; tkOp ")"] (XCall (XName "new") [XName x]).
Proof. intros x. apply (prim_call [tkId "new"] _ [tkId x]); [prims|]. apply A_one. apply E_prim; [prims|lia]. Qed.
Lemma new_line : forall s l x, lvalS s l -> goName x = true -> fresh x = true -> spells (join [s; " = new("; x; ")"; nl]) [SAssign l (ENew x)].
Proof.
  intros s l x (ts & y & H & I & P & L & E) G F.
  apply (spell_line [Hole s ts; Fix_ " = new("; Hole x [tkId x]; Fix_ ")"; Fix_ nl] (ts ++ tkOp "=" :: [tkId "new"; tkOp "("; tkId x; tkOp ")"]) (YAssign "=" [y] [XCall (XName "new") [XName x]])).
  - holes.
  - lexFits.
  - lexToks.
  - apply one_assign; auto. apply new_prim.
  - apply of_assign; auto. cbn. now rewrite F.
Qed.

(** Arguments. *)
Definition argToks (xs : list string) : list token := flat_map (fun y => [tkOp ","; tkId y]) xs.
Lemma hole_args : forall xs s ts, hole s ts -> (forall x, In x xs -> goName x = true) -> hole (s ++ argsS xs)%string (ts ++ argToks xs).
Proof.
  unfold argsS, argToks. induction xs as [|x xs IH]; intros s ts H G; cbn [map join flat_map].
  - rewrite append_nil, app_nil_r. exact H.
  - assert (H1 : hole (join [s; ", "; x]) (ts ++ [tkOp ","; tkId x])).
    { apply (hole_bin ", " s ts x [tkId x]); auto. apply hole_name. apply G. now left. }
    specialize (IH _ _ H1 (fun y I => G y (or_intror I))). cbn [join] in IH. rewrite <- app_assoc in IH.
    match goal with |- hole ?a _ => match type of IH with hole ?b _ => replace a with b; [exact IH|] end end.
    rewrite !append_nil, !append_assoc. reflexivity.
Qed.
Lemma args_reads : forall xs x, readsA (tkId x :: argToks xs) (map XName (x :: xs)).
Proof.
  induction xs as [|y xs IH]; intros x; cbn [map argToks flat_map].
  - apply A_one. apply E_prim; [prims|lia].
  - apply (A_cons [tkId x] (XName x) (tkId y :: argToks xs) (map XName (y :: xs))); [apply E_prim; [prims|lia]|]. apply IH.
Qed.
Lemma args_mean : forall xs, (forall x, In x xs -> fresh x = true) -> all exprOf (map XName xs) = Some (map EVar xs).
Proof. induction xs as [|x xs IH]; intros F; cbn [map all]; [reflexivity|]. rewrite exprOf_name by (apply F; now left). rewrite IH by (intros; apply F; now right). reflexivity. Qed.

Lemma parse_line : forall s l xs, lvalS s l -> (forall x, In x xs -> goName x = true /\ fresh x = true) ->
  spells (join ["cur, err = "; s; ".Parse(cur"; argsS xs; ")"; nl]) [SParse "cur" "err" l cur (map EVar xs)].
Proof.
  intros s l xs (ts & y & H & I & P & L & E) G.
  replace (join ["cur, err = "; s; ".Parse(cur"; argsS xs; ")"; nl]) with (join ["cur, err = "; s; ".Parse("; ("cur" ++ argsS xs)%string; ")"; nl]) by (cbn [join]; rewrite !append_assoc; reflexivity).
  assert (HA : hole ("cur" ++ argsS xs)%string (tkId "cur" :: argToks xs)).
  { apply (hole_args xs "cur" [tkId "cur"]); [now apply hole_name|]. intros x J. now apply G. }
  apply (spell_line [Fix_ "cur, err = "; Hole s ts; Fix_ ".Parse("; Hole ("cur" ++ argsS xs)%string (tkId "cur" :: argToks xs); Fix_ ")"; Fix_ nl]
    (([tkId "cur"] ++ tkOp "," :: [tkId "err"]) ++ tkOp "=" :: ((ts ++ [tkOp "."; tkId "Parse"]) ++ tkOp "(" :: (tkId "cur" :: argToks xs) ++ [tkOp ")"]))
    (YAssign "=" [XName "cur"; XName "err"] [XCall (XSel y "Parse") (map XName ("cur" :: xs))])).
  - repeat (apply Forall_cons; [first [exact Logic.I|exact H|exact HA]|]). constructor.
  - lexFits.
  - lexToks.
  - apply S_assign; [reflexivity|reflexivity| |].
    + apply L_cons; [apply E_prim; [prims|lia]|]. apply L_one. apply E_prim; [prims|lia].
    + apply L_one. apply E_prim; [|lia]. apply prim_call; [now apply prim_sel|]. apply args_reads.
  - cbn. rewrite L. rewrite args_mean by (intros x J; now apply G). reflexivity.
Qed.

(** Loops. *)
Lemma for_line : forall s e b ss, primS s e -> spells b ss -> spells (join ["for idx := 0; idx < "; s; "; idx++ {"; nl; b; "}"; nl]) [SForLt "idx" e ss].
Proof.
  intros s e b ss (ts & x & H & P & E) (us & ys & R & S1 & M).
  apply (spell_line [Fix_ "for idx := 0; idx < "; Hole s ts; Fix_ "; idx++ {"; Fix_ nl; Lines b us; Fix_ "}"; Fix_ nl]
    (tkKey "for" :: tkId "idx" :: tkOp ":=" :: tkNum "0" :: tkOp ";" :: tkId "idx" :: tkOp "<" :: ts ++ tkOp ";" :: tkId "idx" :: tkOp "++" :: (tkOp "{" :: us ++ [tkOp "}"]))
    (YFor (YAssign ":=" [XName "idx"] [XNum "0"]) (XBin "<" (XName "idx") x) (YInc (XName "idx")) ys)).
  - holes.
  - lexFits.
  - lexToks.
  - apply S_for; [apply E_prim; [exact P|lia]|]. now apply blk_stm.
  - now apply of_for.
Qed.
Lemma make_line : forall s l g gt n e, lvalS s l -> typeS g gt -> primS n e -> spells (join [s; " = make([]"; g; ", "; n; ")"; nl]) [SAssign l (EMake gt e)].
Proof.
  intros s l g gt n e (ts & y & H & I & P & L & E) (us & t & HT & RT & T) (ws & z & HN & PN & EN).
  apply (spell_line [Hole s ts; Fix_ " = make([]"; Hole g us; Fix_ ", "; Hole n ws; Fix_ ")"; Fix_ nl]
    (ts ++ tkOp "=" :: ([tkId "make"] ++ tkOp "(" :: (tkOp "[" :: tkOp "]" :: us ++ tkOp "," :: ws) ++ [tkOp ")"])) (YAssign "=" [y] [XCall (XName "make") [XSliceOf t; z]])).
  - holes.
  - lexFits.
  - lexToks.
  - apply one_assign; auto. apply prim_call; [prims|]. apply A_slice; auto. apply A_one. apply E_prim; [exact PN|lia].
  - apply of_assign; auto. cbn. now rewrite T, EN.
Qed.
Lemma fill_line : forall s l g gt b ss, lvalS s l -> typeS g gt -> spells b ss ->
  spells (join ["for len(cur) > 0 {"; nl; "var tmp "; g; nl; b; s; " = append("; s; ", tmp)"; nl; "}"; nl])
    [SWhile (EBin BGt (ELen cur) (EInt 0)) ([SVar "tmp" gt] ++ ss ++ [SAssign l (EAppend (lexpr l) (EVar "tmp"))])].
Proof.
  intros s l g gt b ss (ts & y & H & I & P & L & E) (us & t & HT & RT & T) (ws & ys & R & S1 & M).
  apply (spell_line [Fix_ "for len(cur) > 0 {"; Fix_ nl; Fix_ "var tmp "; Hole g us; Fix_ nl; Lines b ws; Hole s ts; Fix_ " = append("; Hole s ts; Fix_ ", tmp)"; Fix_ nl; Fix_ "}"; Fix_ nl]
    (tkKey "for" :: ([tkId "len"; tkOp "("; tkId "cur"; tkOp ")"] ++ tkOp ">" :: [tkNum "0"]) ++ (tkOp "{" ::
       (((tkKey "var" :: tkId "tmp" :: us) ++ [tkOp ";"]) ++ ws ++ ((ts ++ tkOp "=" :: ([tkId "append"] ++ tkOp "(" :: (ts ++ tkOp "," :: [tkId "tmp"]) ++ [tkOp ")"])) ++ [tkOp ";"])) ++ [tkOp "}"]))
    (YWhile (XBin ">" (XCall (XName "len") [XName "cur"]) (XNum "0")) ([YVar "tmp" t] ++ ys ++ [YAssign "=" [y] [XCall (XName "append") [y; XName "tmp"]]]))).
  - holes.
  - lexFits.
  - lexToks.
  - apply S_while; [apply eq_prims; [prims|prims|cbn; lia]|]. apply blk_stm. apply stm_app; [apply stm_one; now apply S_var|]. apply stm_app; auto. apply stm_one.
    apply one_assign; auto. apply prim_call; [prims|]. apply A_cons; [apply E_prim; [exact P|lia]|]. apply A_one. apply E_prim; [prims|lia].
  - apply of_while; [reflexivity|]. unfold stmtsOf in *. rewrite !all_app, M. cbn. rewrite T, L, E. now destruct y.
Qed.

(** Lengths. *)
Lemma restore_line : forall s e, exprS 1 s e -> spells (join ["restore := cur["; s; ":]"; nl]) [SDecl "restore" (EFrom cur e)].
Proof.
  intros s e (ts & x & H & M & E).
  apply (spell_line [Fix_ "restore := cur["; Hole s ts; Fix_ ":]"; Fix_ nl] ([tkId "restore"] ++ tkOp ":=" :: ([tkId "cur"] ++ tkOp "[" :: ts ++ [tkOp ":"; tkOp "]"])) (YAssign ":=" [XName "restore"] [XSlice (XName "cur") (Some x) None])).
  - holes.
  - lexFits.
  - lexToks.
  - apply one_assign; prims; try reflexivity. apply prim_from; [prims|]. eapply E_M; [apply M; lia|lia].
  - apply of_decl; [reflexivity|]. cbn [exprOf]. rewrite E. reflexivity.
Qed.
Lemma cut_line : forall s e, exprS 1 s e -> spells (join ["cur = cur[:"; s; "]"; nl]) [SAssign (LVar "cur") (ETo cur e)].
Proof.
  intros s e (ts & x & H & M & E).
  apply (spell_line [Fix_ "cur = cur[:"; Hole s ts; Fix_ "]"; Fix_ nl] ([tkId "cur"] ++ tkOp "=" :: ([tkId "cur"] ++ tkOp "[" :: tkOp ":" :: ts ++ [tkOp "]"])) (YAssign "=" [XName "cur"] [XSlice (XName "cur") None (Some x)])).
  - holes.
  - lexFits.
  - lexToks.
  - apply one_assign; prims; try reflexivity. apply prim_to; [prims|]. eapply E_M; [apply M; lia|lia].
  - apply of_assign; [reflexivity|]. cbn [exprOf]. rewrite E. reflexivity.
Qed.
Lemma back_line : spells (join ["cur = restore"; nl]) [SAssign (LVar "cur") (EVar "restore")].
Proof.
  apply (spell_line [Fix_ "cur = restore"; Fix_ nl] ([tkId "cur"] ++ tkOp "=" :: [tkId "restore"]) (YAssign "=" [XName "cur"] [XName "restore"])).
  - holes.
  - lexFits.
  - lexToks.
  - apply one_assign; prims; reflexivity.
  - reflexivity.
Qed.
Lemma empty_line : spells (join ["cur = []byte{}"; nl]) [SAssign (LVar "cur") EEmptyBytes].
Proof.
  apply (spell_line [Fix_ "cur = []byte{}"; Fix_ nl] ([tkId "cur"] ++ tkOp "=" :: [tkOp "["; tkOp "]"; tkId "byte"; tkOp "{"; tkOp "}"]) (YAssign "=" [XName "cur"] [XLit (XSliceOf (XName "byte")) []])).
  - holes.
  - lexFits.
  - lexToks.
  - apply one_assign; prims; try reflexivity. split; [reflexivity|]. exists 0%nat, 6%nat. intros n rest Ln.
    assert (X : pOperand n (tkOp "[" :: tkOp "]" :: tkId "byte" :: tkOp "{" :: tkOp "}" :: rest) = Some (XLit (XSliceOf (XName "byte")) [], rest)).
    { do 6 (destruct n as [|n]; [lia|]). reflexivity. }
    cbn [Nat.add app]. cbn [pUn]. change (isUnary "[") with false. cbv iota. rewrite X. reflexivity.
  - reflexivity.
Qed.
Lemma minus_expr : forall s z, isNum s z -> exprS 1 (join ["len(cur)-"; s]) (EBin BSub (ELen cur) (EInt z)).
Proof.
  intros s z N. eexists _, (XBin "-" (XCall (XName "len") [XName "cur"]) (XNum s)). split; [eapply hole_minus; exact N|]. split.
  - intros prec LP. eapply weakM; [eapply (M_bin prec 5 [tkId "len"; tkOp "("; tkId "cur"; tkOp ")"] _ "-" [tkNum s])|]; try (cbn; lia); [apply M_prim; prims|apply E_prim; [prims|cbn; lia]].
  - apply exprOf_bin; try reflexivity; [|discriminate]. destruct N as (? & ? & _ & _ & _ & E). cbn [exprOf]. now rewrite E.
Qed.
Lemma block_line : forall b ss, spells b ss -> spells (join ["{"; nl; b; "}"; nl]) [SBlock ss].
Proof.
  intros b ss (us & ys & R & S1 & M).
  apply (spell_line [Fix_ "{"; Fix_ nl; Lines b us; Fix_ "}"; Fix_ nl] (tkOp "{" :: us ++ [tkOp "}"]) (YBlock ys)).
  - holes.
  - lexFits.
  - lexToks.
  - apply S_block. now apply blk_stm.
  - now apply of_block.
Qed.
Lemma fail_line : spells (join ["{"; nl; "return nil, errors.New(""disallowed case"")"; "}"; nl]) [SBlock [retErr "disallowed case"]].
Proof.
  apply (spell_line [Fix_ "{"; Fix_ nl; Fix_ "return nil, errors.New(""disallowed case"")"; Fix_ "}"; Fix_ nl] (tkOp "{" :: errToks "disallowed case" ++ [tkOp "}"]) (YBlock [errTree "disallowed case"])).
  - holes.
  - lexFits.
  - lexToks.
  - apply S_block. apply blk_one. apply err_one.
  - reflexivity.
Qed.

(** Cases. *)
Definition casesOf := (fix cases (l : list (option (list gx) * list gs)) : option (list (option expr * list stmt)) :=
                 match l with
                 | [] => Some []
                 | (Some [e], b) :: l' => 'a <-? exprOf e ;; 'b <-? bodyOf b ;; 'cs <-? cases l' ;; Some ((Some a, b) :: cs)
                 | (None, b) :: l' => 'b <-? bodyOf b ;; 'cs <-? cases l' ;; Some ((None, b) :: cs)
                 | _ => None
                 end).
Definition casesS (s : string) (cs : list (option expr * list stmt)) : Prop :=
  exists ts ys, run (sGap false) s = (ts, sGap false) /\ casesR ts ys /\ casesOf ys = Some cs.
Lemma no_cases : casesS "" [].
Proof. exists [], []. split; [reflexivity|]. split; [apply cases_nil|reflexivity]. Qed.
Lemma some_case : forall c e b ss rest cs, exprS 1 c e -> spells b ss -> casesS rest cs -> casesS (join ["case "; c; ":"; nl; b; rest]) ((Some e, ss) :: cs).
Proof.
  intros c e b ss rest cs (ts & x & H & M & E) (us & ys & R & S1 & B) (ws & zs & R2 & C2 & E2).
  exists (tkKey "case" :: ts ++ tkOp ":" :: us ++ ws), ((Some [x], ys) :: zs). split; [|split].
  - change (run (sGap false) (flat [Fix_ "case "; Hole c ts; Fix_ ":"; Fix_ nl; Lines b us; Lines rest ws]) = (tkKey "case" :: ts ++ tkOp ":" :: us ++ ws, sGap false)).
    rewrite run_pieces; [lexToks|holes|lexFits].
  - apply cases_some; auto. eapply E_M; [apply M; lia|lia].
  - cbn [casesOf]. rewrite E, bodyOf_eq, B. fold casesOf. now rewrite E2.
Qed.
Lemma default_case : forall b ss rest cs, spells b ss -> casesS rest cs -> casesS (join ["default:"; nl; b; rest]) ((None, ss) :: cs).
Proof.
  intros b ss rest cs (us & ys & R & S1 & B) (ws & zs & R2 & C2 & E2).
  exists (tkKey "default" :: tkOp ":" :: us ++ ws), ((None, ys) :: zs). split; [|split].
  - change (run (sGap false) (flat [Fix_ "default:"; Fix_ nl; Lines b us; Lines rest ws]) = (tkKey "default" :: tkOp ":" :: us ++ ws, sGap false)).
    rewrite run_pieces; [lexToks|holes|lexFits].
  - now apply cases_default.
  - cbn [casesOf]. rewrite bodyOf_eq, B. fold casesOf. now rewrite E2.
Qed.
Lemma switch_line : forall s cs, casesS s cs -> spells (join ["switch {"; nl; s; "}"; nl]) [SSwitch cs].
Proof.
  intros s cs (us & ys & R & S1 & M).
  apply (spell_line [Fix_ "switch {"; Fix_ nl; Lines s us; Fix_ "}"; Fix_ nl] (tkKey "switch" :: tkOp "{" :: us ++ [tkOp "}"]) (YSwitch ys)).
  - holes.
  - lexFits.
  - lexToks.
  - now apply S_switch.
  - cbn [stmtOf]. fold bodyOf. fold casesOf. now rewrite M.
Qed.

Section Members.
Variable camel : string -> string.
Variable r : resolver.
Variable rv : string.
Variable ctxs : list string.
Hypothesis RV : goName rv = true /\ fresh rv = true.
Hypothesis CTX : forall x, In x ctxs -> goName x = true /\ fresh x = true.
Hypothesis CF : forall x n sz, ctxField r ctxs x n = Some sz -> goName (camel n) = true.
Hypothesis ST : forall n s, Struct r n = Some s -> Extern s = false -> goName (camel n) = true /\ fresh (camel n) = true.

Lemma base_type : forall b g, checkBase r ctxs b = true -> tipe camel r b = Ok g -> exists s, tipeS camel r b = Ok s /\ typeS s g.
Proof.
  intros b g C T. destruct b; cbn [checkBase] in C; try discriminate; cbn [tipe tipeS] in *.
  - unfold checkInt in C. apply andb_prop in C as [C _]. assert (SZ : size = 8 \/ size = 16 \/ size = 32 \/ size = 64) by (unfold goodSize in C; lia).
    injection T as <-. eexists. split; [reflexivity|]. apply name_type; destruct SZ as [->|[->|[->| ->]]]; reflexivity.
  - injection T as <-. eexists. split; [reflexivity|]. apply name_type; reflexivity.
  - injection T as <-. eexists. split; [reflexivity|]. apply name_type; reflexivity.
  - injection T as <-. eexists. split; [reflexivity|]. apply name_type; reflexivity.
  - injection T as <-. eexists. split; [reflexivity|]. destruct (Struct r name) as [s|] eqn:E; [|discriminate]. apply andb_prop in C as [C _]. apply negb_true_iff in C.
    destruct (ST _ _ E C). now apply ptr_type.
Qed.
Lemma type_type : forall k t g, checkType r ctxs k t = true -> tipe camel r t = Ok g -> exists s, tipeS camel r t = Ok s /\ typeS s g.
Proof.
  intros k t g C T. destruct t as [| | | | |b i|b l]; try (apply base_type; assumption); cbn [checkType tipe tipeS] in *.
  - apply andb_prop in C as [C G]. apply bind_ok in T as (n & Hn & T). apply bind_ok in T as (g0 & Hg & T). injection T as <-.
    destruct (base_type _ _ C Hg) as (s & -> & S1). rewrite (integer_text _ _ _ Hn). cbn [bind]. eexists. split; [reflexivity|]. apply array_type; auto. apply num_show.
    apply integerOf_value in Hn. unfold goodCount in G. rewrite Hn in G. lia.
  - apply bind_ok in T as (g0 & Hg & T). injection T as <-. assert (C' : checkBase r ctxs b = true) by (destruct l as [[]|]; auto; now apply andb_prop in C as [C _]).
    destruct (base_type _ _ C' Hg) as (s & -> & S1). cbn [bind]. eexists. split; [reflexivity|]. now apply slice_type.
Qed.

(** Fields that are known to have names in Go. *)
Definition goodK (k : known) : Prop := forall n sz, In (n, sz) k -> goName (camel n) = true.
Lemma ref_text : forall k f, goodK k -> (match refWidth r ctxs k f with Some _ => true | None => false end) = true -> primS (refS camel rv f) (refExpr camel rv f).
Proof.
  intros k f K W. unfold refS, refExpr, refWidth in *. destruct (String.eqb (rscope f) "").
  - destruct (alookup (rname f) k) as [sz|] eqn:E; [|discriminate]. apply (lval_prim _ (LField (LVar rv) (camel (rname f)))). apply lval_sel.
    + destruct RV. now apply lval_var.
    + eapply K. eapply GenSimProg.alookup_some_in; eauto.
  - destruct (ctxField r ctxs (rscope f) (rname f)) as [sz|] eqn:E; [|discriminate]. apply (lval_prim _ (LField (LVar (rscope f)) (camel (rname f)))). apply lval_sel.
    + assert (I : In (rscope f) ctxs). { unfold ctxField in E. destruct (memb (rscope f) ctxs) eqn:M; [|discriminate]. unfold memb in M. apply existsb_exists in M as (y & I & M). apply String.eqb_eq in M. now subst y. }
      destruct (CTX _ I). now apply lval_var.
    + eapply CF; eauto.
Qed.
Definition lenOk (k : known) (c : lconstraint) : bool :=
  match c with LRef f => match refWidth r ctxs k f with Some _ => true | None => false end | LLeftover i => goodCount r i end.
Lemma count_num : forall i z, integerOf r i = Ok z -> goodCount r i = true -> isNum (showZ z) z.
Proof. intros i z H G. apply num_show. apply integerOf_value in H. unfold goodCount in G. rewrite H in G. lia. Qed.
Lemma constrained_text : forall k c body ss b, goodK k -> lenOk k c = true -> spells b ss -> constrained camel r rv c ss = Ok body ->
  exists s, constrainedS camel r rv c b = Ok s /\ spells s body.
Proof.
  intros k c body ss b K LO SB P. unfold constrained, constrainedS in *. apply bind_ok in P as ([ck n] & Hc & P). injection P as <-.
  match goal with |- context [bind ?m _] => assert (X : exists cs ns, m = Ok (cs, ns) /\ spells cs [ck] /\ exprS 1 ns n) end.
  { destruct c as [f|i]; cbn [lenOk] in LO.
    - injection Hc as <- <-. pose proof (prim_int _ _ (ref_text k f K LO)) as X. eexists _, _. split; [reflexivity|]. split; [apply lengthCheck_text; auto; discriminate|]. apply prim_expr; auto.
    - apply bind_ok in Hc as (z & Hz & Hc). injection Hc as <- <-. rewrite (integer_text _ _ _ Hz). cbn [bind]. pose proof (count_num _ _ Hz LO) as NZ. eexists _, _. split; [reflexivity|].
      split; [apply lengthCheck_text; [now apply num_prim|discriminate]|]. now apply minus_expr. }
  destruct X as (cs & ns & X & S1 & S2). rewrite X. cbn [bind]. eexists. split; [reflexivity|]. cbn [app].
  apply spells_cons1; auto. apply spells_cons1; [now apply restore_line|]. apply spells_cons1; [now apply cut_line|].
  apply spells_cons; auto. apply spells_cons1; [apply assertEnd_text|]. apply spells_one. apply back_line.
Qed.

Lemma base_text : forall b s l ss, lvalS s l -> checkBase r ctxs b = true -> parseType camel r rv l b = Ok ss -> exists t, parseTypeS camel r rv s b = Ok t /\ spells t ss.
Proof.
  intros b s l ss V C P. destruct b; cbn [checkBase] in C; try discriminate; cbn [parseType parseTypeS] in *.
  - unfold checkInt in C. apply andb_prop in C as [C1 C2]. eapply int_text; eauto. destruct cst as [l0|]; auto. unfold definedList in C2. apply andb_prop in C2 as [_ C2]. now destruct l0.
  - eapply int_text; eauto; reflexivity.
  - injection P as <-. eexists. split; [reflexivity|]. now apply ptr_line.
  - injection P as <-. eexists. split; [reflexivity|].
    apply (spells_split1 ["i := bytes.IndexByte(cur, 0)"; nl]); [apply nul_line1|].
    apply (spells_split1 ["if i < 0 { return nil, errors.New(""could not parse nul-term string"") }"; nl]); [apply nul_line2|]. apply spells_one. now apply nul_line3.
  - destruct (Struct r name) as [t|] eqn:E; [|discriminate]. apply andb_prop in C as [C1 C2]. apply negb_true_iff in C1. injection P as <-. eexists. split; [reflexivity|].
    destruct (ST _ _ E C1) as [G F].
    apply (spells_split1 ["var err error"; nl]); [apply err_var|]. apply spells_cons1; [now apply new_line|].
    apply spells_cons1; [|apply err_check]. apply parse_line; auto. intros x I. rewrite forallb_forall in C2. specialize (C2 x I). unfold memb in C2. apply existsb_exists in C2 as (y & J & C2). apply String.eqb_eq in C2. subst y. auto.
Qed.
Lemma fill_text : forall b s l g body, lvalS s l -> checkBase r ctxs b = true -> tipe camel r b = Ok g -> parseType camel r rv (LVar "tmp") b = Ok body ->
  exists gs bs, tipeS camel r b = Ok gs /\ parseTypeS camel r rv "tmp" b = Ok bs /\
    spells (restS s gs bs) [SAssign l (EMake g (EInt 0));
          SWhile (EBin BGt (ELen cur) (EInt 0)) ([SVar "tmp" g] ++ body ++ [SAssign l (EAppend (lexpr l) (EVar "tmp"))])].
Proof.
  intros b s l g body V C T P. destruct (base_type _ _ C T) as (gs & T1 & T2). destruct (base_text b "tmp" (LVar "tmp") body) as (bs & B1 & B2); auto; [now apply lval_var|].
  exists gs, bs. split; auto. split; auto. unfold restS. apply spells_cons1; [|apply spells_one; now apply fill_line].
  assert (Z0 : isNum "0" 0) by (exists "0"%char, ""; auto). pose proof (make_line s l gs g "0" (EInt 0) V T2 (num_prim _ _ Z0)) as M. cbn [join append] in *. exact M.
Qed.
Lemma type_text : forall k t s l ss, goodK k -> lvalS s l -> checkType r ctxs k t = true -> parseType camel r rv l t = Ok ss -> exists x, parseTypeS camel r rv s t = Ok x /\ spells x ss.
Proof.
  intros k t s l ss K V C P. destruct t as [| | | | |b i|b [[f|i]|]]; try (eapply base_text; eassumption); cbn [checkType parseType parseTypeS] in *.
  - apply andb_prop in C as [C G]. apply bind_ok in P as (n & Hn & P). apply bind_ok in P as (body & HB & P). injection P as <-.
    destruct (base_text b _ _ body (lval_idx _ _ V) C HB) as (bs & B1 & B2). rewrite (integer_text _ _ _ Hn), B1. cbn [bind]. eexists. split; [reflexivity|].
    apply for_line; auto. apply num_prim. eapply count_num; eauto.
  - apply andb_prop in C as [C G]. apply bind_ok in P as (g & Hg & P). apply bind_ok in P as (body & HB & P). injection P as <-.
    destruct (base_text b _ _ body (lval_idx _ _ V) C HB) as (bs & B1 & B2). destruct (base_type _ _ C Hg) as (gs & T1 & T2). rewrite B1, T1. cbn [bind]. eexists. split; [reflexivity|].
    pose proof (prim_int _ _ (ref_text k f K G)) as X. apply spells_cons1; [now apply make_line|]. apply spells_one. now apply for_line.
  - apply andb_prop in C as [C G]. apply bind_ok in P as (g & Hg & P). apply bind_ok in P as (body & HB & P).
    destruct (fill_text b s l g body V C Hg HB) as (gs & bs & T1 & B1 & X). rewrite T1, B1. cbn [bind]. eapply constrained_text; eauto.
  - apply bind_ok in P as (g & Hg & P). apply bind_ok in P as (body & HB & P). injection P as <-.
    destruct (fill_text b s l g body V C Hg HB) as (gs & bs & T1 & B1 & X). rewrite T1, B1. cbn [bind]. eauto.
Qed.

(** Members. *)
Definition membersS := fix parseMembersS (ms : list member) : outcome string :=
    match ms with
    | [] => Ok EmptyString
    | m :: ms' => s <- parseMemberS camel r rv m ;; ss <- parseMembersS ms' ;; Ok (join [s; ss])
    end.
Definition unionCasesS (tag : idref) := fix parseCasesS (cs : list ucase) : outcome string :=
             match cs with
             | [] => Ok EmptyString
             | UCase None ms :: cs' =>
                 b <- membersS ms ;; rest <- parseCasesS cs' ;; Ok (join ["default:"; nl; b; rest])
             | UCase (Some l) ms :: cs' =>
                 c <- conditionalS r (refS camel rv tag) l ;;
                 b <- membersS ms ;; rest <- parseCasesS cs' ;; Ok (join ["case "; c; ":"; nl; b; rest])
             end.
Lemma parseMemberS_union : forall u tag len cs, parseMemberS camel r rv (MUnion u tag len cs) =
  (b <- (cases <- unionCasesS tag cs ;;
         let sw := join ["switch {"; nl; cases; "}"; nl] in
         match len with None => Ok sw | Some c => constrainedS camel r rv c sw end) ;;
   Ok (join ["{"; nl; b; "}"; nl])).
Proof. reflexivity. Qed.

Definition memberT (m : member) : Prop := forall k st, goodK k -> checkMember r ctxs k m = true -> Forall (fun n => goName (camel n) = true) (fieldNames m) ->
  parseMember camel r rv m = Ok st -> exists s, parseMemberS camel r rv m = Ok s /\ spells s [st].
Lemma goodK_add : forall k m, goodK k -> Forall (fun n => goName (camel n) = true) (fieldNames m) -> goodK (addKnown k m).
Proof.
  intros k m K F. unfold addKnown. destruct m as [n t| | | |]; auto. destruct t; auto. intros x sz [E|I]; [|eapply K; eauto]. injection E as <- <-. cbn [fieldNames] in F. now inversion F.
Qed.
Lemma members_text : forall ms k ss, (forall m, In m ms -> memberT m) -> goodK k -> checkMembers r ctxs k ms = true -> Forall (fun n => goName (camel n) = true) (flat_map fieldNames ms) ->
  mapM (parseMember camel r rv) ms = Ok ss -> exists l, mapM (parseMemberS camel r rv) ms = Ok l /\ membersS ms = Ok (join l) /\ spells (join l) ss.
Proof.
  induction ms as [|m ms IH]; intros k ss MT K C F P; cbn [mapM checkMembers flat_map] in *.
  - injection P as <-. exists []. split; auto. split; auto. apply spells_nil.
  - apply bind_ok in P as (st & P1 & P). apply bind_ok in P as (tl & P2 & P). injection P as <-. apply andb_prop in C as [C1 C2]. apply Forall_app in F as [F1 F2].
    destruct (MT m (or_introl eq_refl) k st K C1 F1 P1) as (s & S1 & S2).
    destruct (IH (addKnown k m) tl) as (l & L1 & L2 & L3); auto; [intros m' I; apply MT; now right|now apply goodK_add|].
    exists (s :: l). rewrite S1, L1. cbn [bind]. split; auto. split; [|now apply spells_cons1].
    change (membersS (m :: ms)) with (s <- parseMemberS camel r rv m ;; ss <- membersS ms ;; Ok (join [s; ss])). rewrite S1, L2. cbn [bind join]. now rewrite append_nil.
Qed.
Lemma member_text : forall m, memberT m.
Proof.
  induction m as [nm t|u tag len cs IH| | |] using member_ind'; intros k st K C F P.
  - cbn [parseMember parseMemberS checkMember fieldNames] in *. apply bind_ok in P as (b & P & E). injection E as <-. inversion F as [|? ? F1 _]; subst.
    destruct (type_text k t (join [rv; "."; camel nm]) (LField (LVar rv) (camel nm)) b K) as (x & X1 & X2); auto.
    { destruct RV. apply lval_sel; auto. now apply lval_var. }
    rewrite X1. cbn [bind]. eexists. split; [reflexivity|]. now apply block_line.
  - rewrite parseMember_union in P. rewrite parseMemberS_union. apply bind_ok in P as (cases & HC & P). cbn [checkMember] in C. apply andb_true_iff in C as [C C3].
    apply andb_true_iff in C as [C1 C2]. cbn [fieldNames] in F. pose proof (ref_text k tag K C1) as RT.
    assert (SW : exists s, unionCasesS tag cs = Ok s /\ casesS s cases).
    { clear P C2. rewrite Forall_forall in IH. revert cases HC. induction cs as [|[l0 ms] cs IHc]; intros cases HC; cbn [parseCases] in HC.
      - injection HC as <-. exists "". split; auto. apply no_cases.
      - cbn [flat_map forallb] in *. apply Forall_app in F as [F1 F2].
        apply andb_true_iff in C3 as [C3 C4]. apply andb_true_iff in C3 as [D C3].
        assert (BODY : forall b, mapM (parseMember camel r rv) ms = Ok b -> exists s, membersS ms = Ok s /\ spells s b).
        { intros b H2. destruct (members_text ms k b) as (l & _ & L2 & L3); eauto; [|rewrite <- GenSimProg.kfix_eq; exact C3].
          specialize (IH (UCase l0 ms) (or_introl eq_refl)). cbn [ucase_members] in IH. rewrite Forall_forall in IH. exact IH. }
        assert (REST : forall cases, parseCases camel r rv tag cs = Ok cases -> exists s, unionCasesS tag cs = Ok s /\ casesS s cases).
        { intros cases' H3. apply IHc; auto. intros x I; apply IH; right; auto. }
        destruct l0 as [l|].
        + apply bind_ok in HC as (c & H1 & HC). apply bind_ok in HC as (b & H2 & HC). apply bind_ok in HC as (rest & H3 & HC). injection HC as <-.
          assert (NE : l <> []) by (unfold definedList in D; apply andb_prop in D as [_ D]; now destruct l).
          assert (NN : refExpr camel rv tag <> ENil) by (unfold refExpr; destruct (String.eqb (rscope tag) ""); discriminate).
          destruct (conditional_text r _ _ l c RT NN NE H1) as (cs' & X1 & X2 & _). destruct (BODY _ H2) as (bs & B1 & B2). destruct (REST _ H3) as (rs & R1 & R2).
          cbn [unionCasesS]. rewrite X1, B1. cbn [bind]. fold (unionCasesS tag). rewrite R1. cbn [bind]. eexists. split; [reflexivity|]. now apply some_case.
        + apply bind_ok in HC as (b & H2 & HC). apply bind_ok in HC as (rest & H3 & HC). injection HC as <-.
          destruct (BODY _ H2) as (bs & B1 & B2). destruct (REST _ H3) as (rs & R1 & R2).
          cbn [unionCasesS]. rewrite B1. cbn [bind]. fold (unionCasesS tag). rewrite R1. cbn [bind]. eexists. split; [reflexivity|]. now apply default_case. }
    destruct SW as (s & -> & CS). cbn [bind]. pose proof (switch_line _ _ CS) as SL.
    destruct len as [c|].
    + apply bind_ok in P as (b & P & E). injection E as <-. destruct (constrained_text k c b _ _ K ltac:(unfold lenOk; destruct c; exact C2) SL P) as (x & -> & X). cbn [bind]. eexists. split; [reflexivity|]. now apply block_line.
    + injection P as <-. eexists. split; [reflexivity|]. now apply block_line.
  - cbn in P. injection P as <-. eexists. split; [reflexivity|]. apply block_line. apply assertEnd_text.
  - cbn in P. injection P as <-. eexists. split; [reflexivity|]. apply fail_line.
  - cbn in P. injection P as <-. eexists. split; [reflexivity|]. apply block_line. apply empty_line.
Qed.
End Members.
