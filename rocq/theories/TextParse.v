(** Proofs about the parser of GoText.v: how it reads sequences of tokens that are
    put together from parts. *)
From Coq Require Import ZArith String Ascii List Bool Lia.
From Verif Require Import Base GoLang GoTypes GoText.
Import ListNotations.
Open Scope string_scope.
Open Scope list_scope.
Open Scope nat_scope.

Definition noPost (ts : list token) : bool := negb (isOp "." ts) && negb (isOp "(" ts) && negb (isOp "[" ts).
Definition opPrec (ts : list token) : nat := match ts with tkOp o :: _ => precOf o | _ => 0 end.
(** First tokens of expressions. *)
Definition starts (ts : list token) : bool :=
  match ts with
  | tkId _ :: _ | tkNum _ :: _ | tkStr _ :: _ => true
  | tkOp o :: _ => inb o ["("; "!"; "-"; "["; "*"]
  | _ => false
  end.
Lemma starts_app : forall ts us, starts ts = true -> starts (ts ++ us) = true.
Proof. intros [|t ts] us H; [discriminate|exact H]. Qed.
Lemma starts_not : forall ts o, starts ts = true -> inb o [")"; "]"; ":"; "}"; ","; ";"; "{"] = true -> isOp o ts = false.
Proof.
  intros [|[x|x|x|x|x|] ts] o H I; try discriminate; try reflexivity. cbn [isOp starts] in *. destruct (String.eqb x o) eqn:E; auto.
  apply String.eqb_eq in E. subst x. unfold inb in *. rewrite existsb_exists in *. destruct H as (a & A1 & A2), I as (b & B1 & B2).
  apply String.eqb_eq in A2, B2. subst a b. cbn [In] in *. repeat (destruct A1 as [<-|A1]; [repeat (destruct B1 as [B1|B1]; [discriminate|]); contradiction|]). contradiction.
Qed.

Lemma post_stop : forall n x rest, 1 <= n -> noPost rest = true -> pPost n x rest = Some (x, rest).
Proof.
  intros [|n] x rest L H; [lia|]. unfold noPost in H. apply andb_prop in H as [H H3]. apply andb_prop in H as [H1 H2].
  apply negb_true_iff in H1, H2, H3. cbn [pPost]. now rewrite H1, H2, H3.
Qed.
Lemma more_stop : forall n prec x rest, 1 <= n -> opPrec rest < prec -> pMore n prec x rest = Some (x, rest).
Proof.
  intros [|n] prec x rest L H; [lia|]. cbn [pMore]. destruct rest as [|[y|y|y|y|o|] rest]; try reflexivity. cbn [opPrec] in H.
  replace (Nat.leb prec (precOf o)) with false by (symmetry; apply Nat.leb_gt; lia). now rewrite andb_false_r.
Qed.

Lemma expect_hit : forall o ts, expect o (tkOp o :: ts) = Some ts.
Proof. intros o ts. unfold expect. cbn [isOp]. now rewrite String.eqb_refl. Qed.

(** * Primary expressions *)
Definition prim (ts : list token) (x : gx) : Prop :=
  starts ts = true /\ exists d k, forall n rest, k <= n -> pUn (S d + n) (ts ++ rest) = pPost n x rest.

Lemma prim_name : forall x, prim [tkId x] (XName x).
Proof. intros x. split; [reflexivity|]. exists 0, 1. intros [|n] rest H; [lia|]. reflexivity. Qed.
Lemma prim_num : forall x, prim [tkNum x] (XNum x).
Proof. intros x. split; [reflexivity|]. exists 0, 1. intros [|n] rest H; [lia|]. reflexivity. Qed.
Lemma prim_str : forall x, prim [tkStr x] (XStr x).
Proof. intros x. split; [reflexivity|]. exists 0, 1. intros [|n] rest H; [lia|]. reflexivity. Qed.
Lemma prim_sel : forall ts x f, prim ts x -> prim (ts ++ [tkOp "."; tkId f]) (XSel x f).
Proof.
  intros ts x f (ST & d & k & H). split; [now apply starts_app|]. exists (S d), k. intros n rest L. rewrite <- app_assoc. cbn [app].
  replace (S (S d) + n) with (S d + S n) by lia. rewrite H by lia. reflexivity.
Qed.

(** * Operators *)
Definition readsM (prec c : nat) (ts : list token) (x : gx) : Prop :=
  starts ts = true /\ exists d k, forall n rest, k <= n -> noPost rest = true -> opPrec rest <= c ->
    pBin (S d + n) prec (ts ++ rest) = pMore n prec x rest.
Definition readsE (prec : nat) (ts : list token) (x : gx) : Prop :=
  starts ts = true /\ exists k, forall n rest, k <= n -> noPost rest = true -> opPrec rest < prec ->
    pBin n prec (ts ++ rest) = Some (x, rest).

Lemma M_prim : forall ts x prec, prim ts x -> readsM prec 5 ts x.
Proof.
  intros ts x prec (ST & d & k & H). split; [exact ST|]. exists 0, (S (S d + k)). intros n rest L P C. cbn [plus pBin].
  replace n with (S d + (n - S d)) at 1 by lia. rewrite H by lia. rewrite post_stop by (try lia; assumption). reflexivity.
Qed.
Lemma M_un : forall o ts x prec, inb o ["!"; "-"] = true -> prim ts x -> readsM prec 5 (tkOp o :: ts) (XUn o x).
Proof.
  intros o ts x prec I (ST & d & k & H).
  assert (U : isUnary o = true /\ starts (tkOp o :: ts) = true).
  { unfold inb in I. rewrite existsb_exists in I. destruct I as (y & I & E). apply String.eqb_eq in E. subst y. cbn [In] in I.
    destruct I as [<-|[<-|[]]]; split; reflexivity. }
  destruct U as [U1 U2]. split; [exact U2|]. exists 0, (S (S (S d + k))). intros n rest L P C. cbn [plus pBin app].
  destruct n as [|n]; [lia|]. cbn [pUn]. rewrite U1. replace n with (S d + (n - S d)) at 1 by lia. rewrite H by lia. rewrite post_stop by (try lia; assumption). reflexivity.
Qed.
Lemma noPost_prec : forall o ts, 1 <= precOf o -> noPost (tkOp o :: ts) = true.
Proof.
  intros o ts H. unfold noPost. cbn [isOp]. destruct (String.eqb o ".") eqn:E1; [apply String.eqb_eq in E1; subst; cbn in H; lia|].
  destruct (String.eqb o "(") eqn:E2; [apply String.eqb_eq in E2; subst; cbn in H; lia|].
  destruct (String.eqb o "[") eqn:E3; [apply String.eqb_eq in E3; subst; cbn in H; lia|]. reflexivity.
Qed.
Lemma M_bin : forall prec c ts1 x o ts2 y, readsM prec c ts1 x -> readsE (S (precOf o)) ts2 y -> 1 <= precOf o -> prec <= precOf o -> precOf o <= c ->
  readsM prec (precOf o) (ts1 ++ tkOp o :: ts2) (XBin o x y).
Proof.
  intros prec c ts1 x o ts2 y (ST & d & k & H1) (_ & k2 & H2) Q1 Q2 Q3. split; [now apply starts_app|]. exists (S d), (k + k2). intros n rest L P C.
  rewrite <- app_assoc. cbn [app]. replace (S (S d) + n) with (S d + S n) by lia. rewrite H1 by (first [lia|now apply noPost_prec|(cbn [opPrec]; lia)]).
  cbn [pMore]. replace (Nat.leb 1 (precOf o)) with true by (symmetry; apply Nat.leb_le; lia).
  replace (Nat.leb prec (precOf o)) with true by (symmetry; apply Nat.leb_le; lia). cbn [andb]. rewrite H2 by (try assumption; lia). reflexivity.
Qed.
Lemma E_M : forall prec c ts x, readsM prec c ts x -> prec <= S c -> readsE prec ts x.
Proof.
  intros prec c ts x (ST & d & k & H) L. split; [exact ST|]. exists (S d + S k). intros n rest N P C. replace n with (S d + (n - S d)) by lia.
  rewrite H by (try assumption; lia). apply more_stop; [lia|assumption].
Qed.
Lemma E_prim : forall prec ts x, prim ts x -> prec <= 6 -> readsE prec ts x.
Proof. intros prec ts x H L. exact (E_M prec 5 ts x (M_prim ts x prec H) L). Qed.

Lemma prim_paren : forall ts x, readsE 1 ts x -> prim (tkOp "(" :: ts ++ [tkOp ")"]) (XParen x).
Proof.
  intros ts x (ST & k & H). split; [reflexivity|]. exists 0, (S k). intros [|n] rest L; [lia|]. cbn [plus pUn app].
  change (isUnary "(") with false. cbn match. cbn [pOperand isOp tl]. change (String.eqb "(" "(") with true. cbn match. rewrite <- app_assoc. cbn [app]. rewrite H by (try lia; try reflexivity; cbn; lia). reflexivity.
Qed.
Lemma prim_index : forall ts x us i, prim ts x -> readsE 1 us i -> prim (ts ++ tkOp "[" :: us ++ [tkOp "]"]) (XIndex x i).
Proof.
  intros ts x us i (ST & d & k & H) (SU & k2 & H2). split; [now apply starts_app|]. exists (S d), (k + k2). intros n rest L. rewrite <- app_assoc. cbn [app].
  replace (S (S d) + n) with (S d + S n) by lia. rewrite H by lia. rewrite <- app_assoc. cbn [app pPost isOp tl]. change (String.eqb "[" ".") with false. change (String.eqb "[" "(") with false.
  change (String.eqb "[" "[") with true. cbn match. rewrite (starts_not _ ":") by (try reflexivity; now apply starts_app). rewrite H2 by (try lia; try reflexivity; cbn; lia). reflexivity.
Qed.
Lemma prim_from : forall ts x us i, prim ts x -> readsE 1 us i -> prim (ts ++ tkOp "[" :: us ++ [tkOp ":"; tkOp "]"]) (XSlice x (Some i) None).
Proof.
  intros ts x us i (ST & d & k & H) (SU & k2 & H2). split; [now apply starts_app|]. exists (S d), (k + k2). intros n rest L. rewrite <- app_assoc. cbn [app].
  replace (S (S d) + n) with (S d + S n) by lia. rewrite H by lia. rewrite <- app_assoc. cbn [app pPost isOp tl]. change (String.eqb "[" ".") with false. change (String.eqb "[" "(") with false.
  change (String.eqb "[" "[") with true. cbn match. rewrite (starts_not _ ":") by (try reflexivity; now apply starts_app). rewrite H2 by (try lia; try reflexivity; cbn; lia). reflexivity.
Qed.
Lemma prim_to : forall ts x us i, prim ts x -> readsE 1 us i -> prim (ts ++ tkOp "[" :: tkOp ":" :: us ++ [tkOp "]"]) (XSlice x None (Some i)).
Proof.
  intros ts x us i (ST & d & k & H) (SU & k2 & H2). split; [now apply starts_app|]. exists (S d), (k + k2). intros n rest L. rewrite <- app_assoc. cbn [app].
  replace (S (S d) + n) with (S d + S n) by lia. rewrite H by lia. rewrite <- app_assoc. cbn [app pPost isOp tl]. change (String.eqb "[" ".") with false. change (String.eqb "[" "(") with false.
  change (String.eqb "[" "[") with true. change (String.eqb ":" ":") with true. cbn match. rewrite (starts_not _ "]") by (try reflexivity; now apply starts_app). rewrite H2 by (try lia; try reflexivity; cbn; lia). reflexivity.
Qed.

(** * Types *)
Definition readsT (ts : list token) (t : gx) : Prop :=
  exists k, forall n rest, k <= n -> isOp "." rest = false -> pType n (ts ++ rest) = Some (t, rest).
Lemma T_name : forall x, readsT [tkId x] (XName x).
Proof. intros x. exists 1. intros [|n] rest L P; [lia|]. cbn [app pType]. now rewrite P. Qed.
Lemma T_ptr : forall ts t, readsT ts t -> readsT (tkOp "*" :: ts) (XUn "*" t).
Proof. intros ts t (k & H). exists (S k). intros [|n] rest L P; [lia|]. cbn [app pType isOp tl]. change (String.eqb "*" "*") with true. cbn match. now rewrite H by (try lia; assumption). Qed.
Lemma T_slice : forall ts t, readsT ts t -> readsT (tkOp "[" :: tkOp "]" :: ts) (XSliceOf t).
Proof.
  intros ts t (k & H). exists (S k). intros [|n] rest L P; [lia|]. cbn [app pType isOp tl]. change (String.eqb "[" "*") with false. change (String.eqb "[" "[") with true.
  change (String.eqb "]" "]") with true. cbn match. now rewrite H by (try lia; assumption).
Qed.
Lemma T_array : forall c ts t, readsT ts t -> readsT (tkOp "[" :: tkNum c :: tkOp "]" :: ts) (XArrayOf (XNum c) t).
Proof.
  intros c ts t (k & H). destruct (E_prim 1 _ _ (prim_num c) ltac:(lia)) as (_ & k2 & H2). exists (S (k + k2)). intros [|n] rest L P; [lia|].
  cbn [app pType isOp tl]. change (String.eqb "[" "*") with false. change (String.eqb "[" "[") with true. cbn match. specialize (H2 n (tkOp "]" :: ts ++ rest)). cbn [app] in H2.
  rewrite H2 by (try lia; try reflexivity; cbn; lia). rewrite expect_hit. now rewrite H by (try lia; assumption).
Qed.

(** * Calls *)
Definition readsA (ts : list token) (xs : list gx) : Prop :=
  exists k, forall n rest, k <= n -> pArgs n (ts ++ tkOp ")" :: rest) = Some (xs, rest).
Lemma A_one : forall ts x, readsE 1 ts x -> readsA ts [x].
Proof.
  intros ts x (ST & k & H). exists (S k). intros [|n] rest L; [lia|]. cbn [pArgs]. rewrite (starts_not _ ")") by (try reflexivity; now apply starts_app).
  rewrite H by (try lia; try reflexivity; cbn; lia). reflexivity.
Qed.
Lemma A_cons : forall ts x us xs, readsE 1 ts x -> readsA us xs -> readsA (ts ++ tkOp "," :: us) (x :: xs).
Proof.
  intros ts x us xs (ST & k & H) (k2 & H2). exists (S (k + k2)). intros [|n] rest L; [lia|]. cbn [pArgs]. rewrite <- app_assoc. cbn [app].
  rewrite (starts_not _ ")") by (try reflexivity; now apply starts_app).
  rewrite H by (try lia; try reflexivity; cbn; lia). cbn [isOp expect tl]. change (String.eqb "," ")") with false. change (String.eqb "," ",") with true. cbn match. rewrite ?expect_hit.
  rewrite H2 by lia. reflexivity.
Qed.
Lemma bin_slice : forall ts t, readsT ts t -> exists k, forall n rest, k <= n ->
  pBin n 1 (tkOp "[" :: tkOp "]" :: ts ++ tkOp "," :: rest) = Some (XSliceOf t, tkOp "," :: rest).
Proof.
  intros ts t T. destruct (T_slice ts t T) as (k & H). exists (S (S (S (S k)))). intros n rest L.
  destruct n as [|[|[|n]]]; [lia|lia|lia|]. cbn [pBin pUn]. change (isUnary "[") with false. cbn match. cbn [pOperand isOp]. change (String.eqb "[" "(") with false. cbn match.
  specialize (H n (tkOp "," :: rest)). cbn [app] in H. rewrite H by (try lia; reflexivity).
  cbn [isOp]. change (String.eqb "," "{") with false. cbn match. rewrite post_stop by (try lia; reflexivity). rewrite more_stop by (try lia; cbn; lia). reflexivity.
Qed.
Lemma A_slice : forall ts t us xs, readsT ts t -> readsA us xs -> readsA (tkOp "[" :: tkOp "]" :: ts ++ tkOp "," :: us) (XSliceOf t :: xs).
Proof.
  intros ts t us xs T (k2 & H2). destruct (bin_slice ts t T) as (k & H). exists (S (k + k2)). intros [|n] rest L; [lia|].
  cbn [app pArgs isOp]. change (String.eqb "[" ")") with false. cbn match. rewrite <- app_assoc. cbn [app]. rewrite H by lia.
  cbn [isOp]. change (String.eqb "," ")") with false. cbn match. rewrite expect_hit, H2 by lia. reflexivity.
Qed.
Lemma prim_call : forall ts f us xs, prim ts f -> readsA us xs -> prim (ts ++ tkOp "(" :: us ++ [tkOp ")"]) (XCall f xs).
Proof.
  intros ts f us xs (ST & d & k & H) (k2 & H2). split; [now apply starts_app|]. exists (S d), (k + k2). intros n rest L. rewrite <- app_assoc. cbn [app].
  replace (S (S d) + n) with (S d + S n) by lia. rewrite H by lia. rewrite <- app_assoc. cbn [app pPost isOp tl]. change (String.eqb "(" ".") with false. change (String.eqb "(" "(") with true.
  cbn match. rewrite H2 by lia. reflexivity.
Qed.

(** * Lists of expressions *)
Definition readsL (ts : list token) (xs : list gx) : Prop :=
  starts ts = true /\ exists k, forall n rest, k <= n -> noPost rest = true -> opPrec rest < 1 -> isOp "," rest = false -> pList n (ts ++ rest) = Some (xs, rest).
Lemma L_one : forall ts x, readsE 1 ts x -> readsL ts [x].
Proof.
  intros ts x (ST & k & H). split; [exact ST|]. exists (S k). intros [|n] rest L P C N; [lia|]. cbn [pList]. rewrite H by (try lia; assumption). now rewrite N.
Qed.
Lemma L_cons : forall ts x us xs, readsE 1 ts x -> readsL us xs -> readsL (ts ++ tkOp "," :: us) (x :: xs).
Proof.
  intros ts x us xs (ST & k & H) (_ & k2 & H2). split; [now apply starts_app|]. exists (S (k + k2)). intros [|n] rest L P C N; [lia|]. cbn [pList]. rewrite <- app_assoc. cbn [app].
  rewrite H by (try lia; try reflexivity; cbn; lia). cbn [isOp tl]. change (String.eqb "," ",") with true. cbn match. rewrite H2 by (try lia; assumption). reflexivity.
Qed.

(** * Statements *)
Definition endS (ts : list token) : bool := isOp ";" ts || isOp "}" ts.
Lemma endS_rest : forall ts, endS ts = true -> noPost ts = true /\ opPrec ts = 0 /\ isOp "," ts = false /\ isOp "=" ts = false /\ isOp ":=" ts = false /\ isOp "++" ts = false /\ isOp "." ts = false.
Proof.
  intros [|[x|x|x|x|x|] ts] H; try discriminate. unfold endS in H. cbn [isOp] in H. apply orb_prop in H as [H|H]; apply String.eqb_eq in H; subst x; repeat split; reflexivity.
Qed.
Definition startsS (ts : list token) : bool := negb (isOp "}" ts || isKey "case" ts || isKey "default" ts || isOp ";" ts).
Definition oneS (ts : list token) (y : gs) : Prop :=
  ts <> [] /\ startsS ts = true /\ exists k, forall n rest, k <= n -> endS rest = true -> pStmt n (ts ++ rest) = Some (y, rest).
Definition stm (ts : list token) (ys : list gs) : Prop :=
  exists k, forall n rest, k <= n -> pStmts (List.length ys + n) (ts ++ rest) = ('(b, us) <-? pStmts n rest ;; Some (ys ++ b, us)).

Lemma stm_nil : stm [] [].
Proof. exists 0. intros n rest _. cbn [app List.length plus]. destruct (pStmts n rest) as [[]|]; reflexivity. Qed.
Lemma stm_app : forall ts ys us zs, stm ts ys -> stm us zs -> stm (ts ++ us) (ys ++ zs).
Proof.
  intros ts ys us zs (k & H) (k2 & H2). exists (k + k2). intros n rest L. rewrite app_length, <- app_assoc. replace (List.length ys + List.length zs + n) with (List.length ys + (List.length zs + n)) by lia.
  rewrite H by lia. rewrite H2 by lia. destruct (pStmts n rest) as [[b v]|]; [|reflexivity]. now rewrite app_assoc.
Qed.
Lemma startsS_app : forall ts us, ts <> [] -> startsS (ts ++ us) = startsS ts.
Proof. intros [|t ts] us H; [congruence|reflexivity]. Qed.
Lemma stm_one : forall ts y, oneS ts y -> stm (ts ++ [tkOp ";"]) [y].
Proof.
  intros ts y (NE & ST & k & H). exists k. intros n rest L. cbn [List.length plus pStmts]. rewrite <- app_assoc. cbn [app].
  pose proof (startsS_app ts (tkOp ";" :: rest) NE) as SA. rewrite ST in SA. unfold startsS in SA. apply negb_true_iff, orb_false_elim in SA as [SA SB]. rewrite SA, SB.
  rewrite H by (try lia; reflexivity). cbn [isOp expect tl]. change (String.eqb ";" "}") with false. change (String.eqb ";" ";") with true. cbn match. rewrite ?expect_hit.
  destruct (pStmts n rest) as [[b v]|]; reflexivity.
Qed.

Definition blk (ts : list token) (ys : list gs) : Prop :=
  isOp "{" ts = true /\ exists k, forall n rest, k <= n -> pBlock n (ts ++ rest) = Some (ys, rest).
Lemma blk_stm : forall ts ys, stm ts ys -> blk (tkOp "{" :: ts ++ [tkOp "}"]) ys.
Proof.
  intros ts ys (k & H). split; [reflexivity|]. exists (S (S (List.length ys + k))). intros [|n] rest L; [lia|]. cbn [app pBlock]. rewrite expect_hit.
  rewrite <- app_assoc. cbn [app]. replace n with (List.length ys + S (n - List.length ys - 1)) by lia. rewrite H by lia. cbn [pStmts isOp orb]. change (String.eqb "}" "}") with true. cbn [orb]. cbn match.
  rewrite expect_hit. now rewrite app_nil_r.
Qed.
Lemma blk_one : forall ts y, oneS ts y -> blk (tkOp "{" :: ts ++ [tkOp "}"]) [y].
Proof.
  intros ts y (NE & ST & k & H). split; [reflexivity|]. exists (S (S k)). intros [|[|n]] rest L; [lia|lia|]. cbn [app pBlock]. rewrite expect_hit.
  rewrite <- app_assoc. cbn [app]. cbn [pStmts]. pose proof (startsS_app ts (tkOp "}" :: rest) NE) as SA. rewrite ST in SA. unfold startsS in SA.
  apply negb_true_iff, orb_false_elim in SA as [SA SB]. rewrite SA, SB. rewrite H by (try lia; reflexivity). cbn [isOp]. change (String.eqb "}" "}") with true. cbn match. rewrite expect_hit. reflexivity.
Qed.

Lemma S_block : forall ts ys, blk ts ys -> oneS ts (YBlock ys).
Proof.
  intros ts ys (O & k & H). split; [intros ->; discriminate|]. split.
  { destruct ts as [|[x|x|x|x|x|] ts]; try discriminate. cbn [isOp] in O. apply String.eqb_eq in O. subst. reflexivity. }
  exists (S k). intros [|n] rest L E; [lia|]. cbn [pStmt]. assert (O2 : isOp "{" (ts ++ rest) = true) by (destruct ts; [discriminate|exact O]). rewrite O2. now rewrite H by lia.
Qed.
Lemma S_var : forall x ts t, readsT ts t -> oneS (tkKey "var" :: tkId x :: ts) (YVar x t).
Proof.
  intros x ts t (k & H). split; [discriminate|]. split; [reflexivity|]. exists (S k). intros [|n] rest L E; [lia|]. cbn [app pStmt isOp isKey tl name1].
  change (String.eqb "var" "var") with true. cbn match. apply endS_rest in E. rewrite H by (try lia; tauto). reflexivity.
Qed.
Lemma S_if : forall cs c bs b, readsE 1 cs c -> blk bs b -> oneS (tkKey "if" :: cs ++ bs) (YIf c b).
Proof.
  intros cs c bs b (_ & k & H) (O & k2 & H2). split; [discriminate|]. split; [reflexivity|]. exists (S (k + k2)). intros [|n] rest L E; [lia|]. cbn [app pStmt isOp isKey tl].
  change (String.eqb "if" "var") with false. change (String.eqb "if" "if") with true. cbn match. rewrite <- app_assoc.
  assert (B : noPost (bs ++ rest) = true /\ opPrec (bs ++ rest) < 1).
  { destruct bs as [|[x|x|x|x|x|] bs]; try discriminate. cbn [isOp] in O. apply String.eqb_eq in O. subst x. split; [reflexivity|cbn; lia]. }
  rewrite H by (try lia; tauto). rewrite H2 by lia. reflexivity.
Qed.
Lemma S_while : forall cs c bs b, readsE 1 cs c -> blk bs b -> oneS (tkKey "for" :: cs ++ bs) (YWhile c b).
Proof.
  intros cs c bs b E (O & k2 & H2). destruct (L_one _ _ E) as (_ & k & H). split; [discriminate|]. split; [reflexivity|]. exists (S (k + k2)). intros [|n] rest L _; [lia|].
  cbn [app pStmt isOp isKey tl]. change (String.eqb "for" "var") with false. change (String.eqb "for" "if") with false. change (String.eqb "for" "for") with true. cbn match. rewrite <- app_assoc.
  assert (B : noPost (bs ++ rest) = true /\ opPrec (bs ++ rest) < 1 /\ isOp "," (bs ++ rest) = false /\ isOp ":=" (bs ++ rest) = false).
  { destruct bs as [|[x|x|x|x|x|] bs]; try discriminate. cbn [isOp] in O. apply String.eqb_eq in O. subst x. repeat split; try reflexivity; cbn; lia. }
  rewrite H by (try lia; tauto). destruct B as (_ & _ & _ & B). rewrite B. rewrite H2 by lia. reflexivity.
Qed.
Lemma S_for : forall x es e bs b, readsE 4 es e -> blk bs b ->
  oneS (tkKey "for" :: tkId x :: tkOp ":=" :: tkNum "0" :: tkOp ";" :: tkId x :: tkOp "<" :: es ++ tkOp ";" :: tkId x :: tkOp "++" :: bs)
       (YFor (YAssign ":=" [XName x] [XNum "0"]) (XBin "<" (XName x) e) (YInc (XName x)) b).
Proof.
  intros x es e bs b E (O & k2 & H2).
  destruct (L_one _ _ (E_prim 1 _ _ (prim_name x) ltac:(lia))) as (_ & k1 & H1).
  destruct (L_one _ _ (E_prim 1 _ _ (prim_num "0") ltac:(lia))) as (_ & k3 & H3).
  destruct (E_M 1 3 _ _ (M_bin 1 5 _ _ "<" _ _ (M_prim _ _ 1 (prim_name x)) E ltac:(cbn; lia) ltac:(cbn; lia) ltac:(cbn; lia)) ltac:(lia)) as (_ & k4 & H4).
  split; [discriminate|]. split; [reflexivity|]. exists (S (k1 + k2 + k3 + k4)). intros [|n] rest L _; [lia|]. cbn [app pStmt isOp isKey tl].
  change (String.eqb "for" "var") with false. change (String.eqb "for" "if") with false. change (String.eqb "for" "for") with true. cbn match.
  cbn [app] in H1, H3, H4. rewrite H1 by (try lia; try reflexivity; cbn; lia). cbn [isOp isKey tl]. change (String.eqb ":=" ":=") with true. cbn match.
  rewrite H3 by (try lia; try reflexivity; cbn; lia). cbn [isOp expect tl]. change (String.eqb ";" ";") with true. cbn match. rewrite ?expect_hit.
  rewrite <- app_assoc. cbn [app]. rewrite H4 by (try lia; try reflexivity; cbn; lia). cbn [isOp expect tl]. change (String.eqb ";" ";") with true. cbn match. rewrite ?expect_hit.
  unfold pSimple. rewrite H1 by (try lia; try reflexivity; cbn; lia). cbn [isOp tl]. change (String.eqb "++" "=") with false. change (String.eqb "++" ":=") with false. change (String.eqb "++" "++") with true. cbn match.
  rewrite H2 by lia. reflexivity.
Qed.
Lemma S_return : forall ts xs, readsL ts xs -> oneS (tkKey "return" :: ts) (YReturn xs).
Proof.
  intros ts xs (_ & k & H). split; [discriminate|]. split; [reflexivity|]. exists (S k). intros [|n] rest L E; [lia|]. cbn [app pStmt isOp isKey tl].
  change (String.eqb "return" "var") with false. change (String.eqb "return" "if") with false. change (String.eqb "return" "for") with false. change (String.eqb "return" "switch") with false. change (String.eqb "return" "return") with true. cbn match.
  apply endS_rest in E as (E1 & E2 & E3 & _). rewrite H by (try lia; assumption). reflexivity.
Qed.
(** Statements that begin with a name. *)
Definition idStart (ts : list token) : bool := match ts with tkId _ :: _ => true | _ => false end.
Lemma S_assign : forall o ls l rs r, inb o ["="; ":="] = true -> idStart ls = true -> readsL ls l -> readsL rs r -> oneS (ls ++ tkOp o :: rs) (YAssign o l r).
Proof.
  intros o ls l rs r I ID (_ & k & H) (_ & k2 & H2). destruct ls as [|[x|x|x|x|x|] ls]; try discriminate. split; [discriminate|]. split; [reflexivity|].
  exists (S (k + k2)). intros [|n] rest L E. 1: lia. apply endS_rest in E as (E1 & E2 & E3 & _). rewrite <- app_assoc. cbn [app pStmt isOp isKey]. unfold pSimple. cbn [app] in H.
  unfold inb in I. rewrite existsb_exists in I. destruct I as (y & I & Q). apply String.eqb_eq in Q. subst y.
  assert (A : noPost (tkOp o :: rs ++ rest) = true /\ opPrec (tkOp o :: rs ++ rest) < 1 /\ isOp "," (tkOp o :: rs ++ rest) = false).
  { cbn [In] in I. destruct I as [<-|[<-|[]]]; repeat split; cbn; lia. }
  rewrite H by (try lia; tauto). cbn [isOp tl]. cbn [In] in I. destruct I as [<-|[<-|[]]].
  - change (String.eqb "=" "=") with true. cbn match. rewrite H2 by (try lia; assumption). reflexivity.
  - change (String.eqb ":=" "=") with false. change (String.eqb ":=" ":=") with true. cbn match. rewrite H2 by (try lia; assumption). reflexivity.
Qed.

(** * Switches *)
Definition caseHead (ts : list token) : bool := isOp "}" ts || isKey "case" ts || isKey "default" ts.
Definition casesR (ts : list token) (cs : list (option (list gx) * list gs)) : Prop :=
  caseHead (ts ++ [tkOp "}"]) = true /\ exists k, forall n rest, k <= n -> pCases n (ts ++ tkOp "}" :: rest) = Some (cs, rest).
Lemma caseHead_app : forall ts rest, caseHead (ts ++ [tkOp "}"]) = true -> caseHead (ts ++ tkOp "}" :: rest) = true.
Proof. intros [|t ts] rest H; [reflexivity|exact H]. Qed.
Lemma cases_nil : casesR [] [].
Proof. split; [reflexivity|]. exists 1. intros [|n] rest L; [lia|]. reflexivity. Qed.
Lemma stm_case : forall ts ys, stm ts ys -> exists k, forall n rest, k <= n -> caseHead rest = true -> pStmts n (ts ++ rest) = Some (ys, rest).
Proof.
  intros ts ys (k & H). exists (S (List.length ys + k)). intros n rest L C. replace n with (List.length ys + S (n - List.length ys - 1)) by lia. rewrite H by lia.
  cbn [pStmts]. unfold caseHead in C. rewrite C. now rewrite app_nil_r.
Qed.
Lemma cases_some : forall es e bs b ts cs, readsE 1 es e -> stm bs b -> casesR ts cs -> casesR (tkKey "case" :: es ++ tkOp ":" :: bs ++ ts) ((Some [e], b) :: cs).
Proof.
  intros es e bs b ts cs E B (C & k3 & H3). destruct (L_one _ _ E) as (_ & k & H). destruct (stm_case _ _ B) as (k2 & H2). split; [reflexivity|]. exists (S (k + k2 + k3)). intros [|n] rest L; [lia|].
  cbn [app pCases isOp isKey tl]. change (String.eqb "case" "case") with true. cbn match. rewrite <- app_assoc. cbn [app]. rewrite H by (try lia; try reflexivity; cbn; lia).
  rewrite expect_hit. rewrite <- app_assoc. rewrite H2 by (try lia; now apply caseHead_app). rewrite H3 by lia. reflexivity.
Qed.
Lemma cases_default : forall bs b ts cs, stm bs b -> casesR ts cs -> casesR (tkKey "default" :: tkOp ":" :: bs ++ ts) ((None, b) :: cs).
Proof.
  intros bs b ts cs B (C & k3 & H3). destruct (stm_case _ _ B) as (k2 & H2). split; [reflexivity|]. exists (S (k2 + k3)). intros [|n] rest L; [lia|].
  cbn [app pCases isOp isKey tl]. change (String.eqb "default" "case") with false. change (String.eqb "default" "default") with true. cbn match.
  rewrite expect_hit. rewrite <- app_assoc. rewrite H2 by (try lia; now apply caseHead_app). rewrite H3 by lia. reflexivity.
Qed.
Lemma S_switch : forall ts cs, casesR ts cs -> oneS (tkKey "switch" :: tkOp "{" :: ts ++ [tkOp "}"]) (YSwitch cs).
Proof.
  intros ts cs (_ & k & H). split; [discriminate|]. split; [reflexivity|]. exists (S k). intros [|n] rest L E; [lia|]. cbn [app pStmt isOp isKey tl].
  change (String.eqb "switch" "var") with false. change (String.eqb "switch" "if") with false. change (String.eqb "switch" "for") with false. change (String.eqb "switch" "switch") with true. cbn match.
  rewrite expect_hit. rewrite <- app_assoc. cbn [app]. rewrite H by lia. reflexivity.
Qed.
