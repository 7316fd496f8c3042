(** Proofs that the text of tests and fuzz functions is read as the functions of PkgModel.v. *)
From Coq Require Import ZArith String Ascii List Bool Lia.
From Verif Require Import Base TvModel GoLang GoTypes PkgModel GenPrint GenSimBody GoText TextModel TextLex TextParse TextSim TextDecl GoTestText TestTextModel.
Import ListNotations.
Open Scope string_scope.
Open Scope list_scope.
Open Scope Z_scope.

(** * Lexing *)
Lemma brace_run : forall b c s, run (sOp b "}") (String c s) = pre [tkOp "}"] (run (sGap true) (String c s)).
Proof. intros b c s. rewrite restart_run; [reflexivity|]. destruct c as [[] [] [] [] [] [] [] []]; reflexivity. Qed.

Definition isNumB (s : string) (z : Z) : bool :=
  match s with
  | String c s' => isDigit c && alnums s' && match intOf s with Some y => y =? z | None => false end
  | EmptyString => false
  end.
Lemma isNumB_isNum : forall s z, isNumB s z = true -> isNum s z.
Proof.
  intros [|c s] z H; [discriminate|]. unfold isNumB in H. apply andb_prop in H as [H H2]. apply andb_prop in H as [H H1]. exists c, s. repeat split; auto.
  destruct (intOf (String c s)) as [y|]; [|discriminate]. apply Z.eqb_eq in H2. now subst.
Qed.
Lemma byte_num : forall b, 0 <= b < 256 -> isNum (showByte b) b.
Proof.
  intros b H. apply isNumB_isNum. assert (X : forallb (fun k => isNumB (showByte (Z.of_nat k)) (Z.of_nat k)) (seq 0 256) = true) by (vm_compute; reflexivity).
  rewrite forallb_forall in X. specialize (X (Z.to_nat b)). rewrite Z2Nat.id in X by lia. apply X. apply in_seq. lia.
Qed.

(** The tokens of bytes, separated by commas. *)
Fixpoint byteToks (b : bytes) : list token :=
  match b with
  | [] => []
  | [x] => [tkNum (showByte x)]
  | x :: b' => tkNum (showByte x) :: tkOp "," :: byteToks b'
  end.
Lemma hole_comma : forall a ts b us, hole a ts -> hole b us -> hole (join [a; ", "; b]) (ts ++ tkOp "," :: us).
Proof.
  intros a ts b us A B. apply (hole_pieces [Hole a ts; Fix_ ", "; Hole b us]); [holes|]. intros st c rest O C. split.
  - cbn [fits app fixedNext]. rewrite O. lexFixed. rewrite C. reflexivity.
  - cbn [toks app]. lexFixed. destruct (run (sGap true) (String c rest)) as [vs v]. unfold pre. cbn [fst snd finish]. repeat (rewrite ?app_nil_r, <- ?app_assoc; cbn [app]). reflexivity.
Qed.
Lemma hole_bytes : forall b x, Forall (fun y => 0 <= y < 256) (x :: b) -> hole (String.concat ", " (map showByte (x :: b))) (byteToks (x :: b)).
Proof.
  induction b as [|y b IH]; intros x F; inversion F as [|? ? F1 F2]; subst.
  - exact (hole_num _ _ (byte_num _ F1)).
  - assert (E : String.concat ", " (map showByte (x :: y :: b)) = join [showByte x; ", "; String.concat ", " (map showByte (y :: b))]).
    { cbn [join]. rewrite append_nil. reflexivity. }
    rewrite E. exact (hole_comma _ [tkNum (showByte x)] _ _ (hole_num _ _ (byte_num _ F1)) (IH _ F2)).
Qed.
Definition dataToks (d : option bytes) : list token :=
  match d with
  | None => [tkOp "["; tkOp "]"; tkId "byte"; tkOp "("; tkId "nil"; tkOp ")"]
  | Some b => tkOp "[" :: tkOp "]" :: tkId "byte" :: tkOp "{" :: byteToks b ++ [tkOp "}"]
  end.
Definition dataOk (d : option bytes) : Prop := Forall (fun y => 0 <= y < 256) (plainData d).
Lemma hole_dataS : forall d, dataOk d -> hole (dataS d) (dataToks d).
Proof.
  intros [[|x b]|] F.
  - apply (hole_pieces [Fix_ "[]byte{}"]); [holes|]. intros st c rest O C. cbn [fits toks app]. rewrite open_fix by (try exact O; reflexivity).
    destruct (snd (finish st)); lexFixed; (split; [reflexivity|]); unfold pre; cbn [fst snd]; rewrite brace_run; destruct (run (sGap true) (String c rest)) as [us u]; unfold pre; cbn [fst snd finish byteToks dataToks app]; repeat (rewrite ?app_nil_r, <- ?app_assoc; cbn [app]); reflexivity.
  - change (dataS (Some (x :: b))) with (flat [Fix_ "[]byte{"; Hole (String.concat ", " (map showByte (x :: b))) (byteToks (x :: b)); Fix_ "}"]).
    apply hole_pieces; [pose proof (hole_bytes b x F); holes|]. intros st c rest O C. cbn [fits toks app fixedNext]. rewrite open_fix by (try exact O; reflexivity).
    destruct (snd (finish st)); lexFixed; (split; [reflexivity|]); unfold pre; cbn [fst snd]; rewrite brace_run; destruct (run (sGap true) (String c rest)) as [us u]; unfold pre; cbn [fst snd finish dataToks]; repeat (rewrite ?app_nil_r, <- ?app_assoc; cbn [app]); reflexivity.
  - apply (hole_pieces [Fix_ "[]byte(nil)"]); [holes|]. intros st c rest O C. cbn [fits toks app]. rewrite open_fix by (try exact O; reflexivity).
    destruct (snd (finish st)); lexFixed; (split; [reflexivity|]); unfold pre; cbn [fst snd]; rewrite close_run by reflexivity; destruct (run (sGap true) (String c rest)) as [us u]; unfold pre; cbn [fst snd finish dataToks]; repeat (rewrite ?app_nil_r, <- ?app_assoc; cbn [app]); reflexivity.
Qed.

(** * Literals *)
Definition litR (ts : list token) (es : list gx) : Prop := exists k, forall n rest, (k <= n)%nat -> pElems n (ts ++ tkOp "}" :: rest) = Some (es, rest).
Definition elemsR (ts : list token) (es : list gx) : Prop :=
  exists k, forall n rest, (k <= n)%nat -> pElems (List.length es + n) (ts ++ rest) = ('(b, us) <-? pElems n rest ;; Some (es ++ b, us)).
Lemma elems_nil : elemsR [] [].
Proof. exists 0%nat. intros n rest _. cbn [List.length Nat.add app]. destruct (pElems n rest) as [[]|]; reflexivity. Qed.
Lemma elems_app : forall ts xs us ys, elemsR ts xs -> elemsR us ys -> elemsR (ts ++ us) (xs ++ ys).
Proof.
  intros ts xs us ys (k & H) (k2 & H2). exists (k + k2)%nat. intros n rest L. rewrite app_length, <- Nat.add_assoc, <- app_assoc. rewrite H by lia. rewrite H2 by lia.
  destruct (pElems n rest) as [[b v]|]; [|reflexivity]. now rewrite app_assoc.
Qed.
Lemma lit_elems : forall ts es, elemsR ts es -> litR ts es.
Proof.
  intros ts es (k & H). exists (List.length es + S k)%nat. intros n rest L. replace n with (List.length es + S (n - List.length es - 1))%nat by lia. rewrite H by lia. cbn. now rewrite app_nil_r.
Qed.
Lemma lit_nil : litR [] [].
Proof. exists 1%nat. intros [|n] rest L; [lia|]. reflexivity. Qed.
Lemma elem_step : forall ts x o, readsE 1 ts x -> inb o ["}"; ","] = true -> exists k, forall n rest, (k <= n)%nat -> pElem n (ts ++ tkOp o :: rest) = Some (x, tkOp o :: rest).
Proof.
  intros ts x o (ST & k & H) O. exists (S k). intros [|n] rest L; [lia|]. cbn [pElem]. rewrite (starts_not _ "{") by (try reflexivity; now apply starts_app).
  assert (X : noPost (tkOp o :: rest) = true /\ (opPrec (tkOp o :: rest) < 1)%nat).
  { unfold inb in O. rewrite existsb_exists in O. destruct O as (y & I & E). apply String.eqb_eq in E. subst y. cbn [In] in I. destruct I as [<-|[<-|[]]]; split; cbn; lia. }
  rewrite H by (try lia; tauto). reflexivity.
Qed.
Lemma lit_one : forall ts x, readsE 1 ts x -> litR ts [x].
Proof.
  intros ts x E. destruct (elem_step ts x "}" E eq_refl) as (k & H). destruct E as (ST & _). exists (S k). intros [|n] rest L; [lia|]. cbn [pElems]. rewrite (starts_not _ "}") by (try reflexivity; now apply starts_app).
  rewrite H by lia. reflexivity.
Qed.
Lemma lit_cons : forall ts x us xs, readsE 1 ts x -> litR us xs -> litR (ts ++ tkOp "," :: us) (x :: xs).
Proof.
  intros ts x us xs E (k2 & H2). destruct (elem_step ts x "," E eq_refl) as (k & H). destruct E as (ST & _). exists (S (k + k2)). intros [|n] rest L; [lia|]. cbn [pElems]. rewrite <- app_assoc. cbn [app]. rewrite (starts_not _ "}") by (try reflexivity; now apply starts_app).
  rewrite H by lia. cbn [isOp String.eqb Ascii.eqb Bool.eqb]. rewrite expect_hit. rewrite H2 by lia. reflexivity.
Qed.
Lemma prim_lit : forall ts t us es, isOp "[" ts = true -> readsT ts t -> litR us es -> prim (ts ++ tkOp "{" :: us ++ [tkOp "}"]) (XLit t es).
Proof.
  intros ts t us es S0 (k & H) (k2 & H2). destruct ts as [|[x|x|x|x|x|] ts]; try discriminate. cbn [isOp] in S0. apply String.eqb_eq in S0. subst x.
  split; [reflexivity|]. exists 0%nat, (S (k + k2)). intros n rest L. destruct n as [|n]; [lia|]. cbn [Nat.add]. rewrite <- app_assoc. cbn [app]. rewrite <- app_assoc. cbn [app].
  specialize (H n (tkOp "{" :: us ++ tkOp "}" :: rest)). cbn [app] in H. cbn [pUn]. change (isUnary "[") with false. cbn match.
  assert (X : pOperand (S n) (tkOp "[" :: ts ++ tkOp "{" :: us ++ tkOp "}" :: rest) = Some (XLit t es, rest)).
  { cbn [pOperand isOp]. change (String.eqb "[" "(") with false. cbn match. rewrite H by (try lia; reflexivity). cbn [isOp tl]. change (String.eqb "{" "{") with true. cbn match. rewrite H2 by lia. reflexivity. }
  rewrite X. reflexivity.
Qed.
Lemma prim_nilbytes : prim [tkOp "["; tkOp "]"; tkId "byte"; tkOp "("; tkId "nil"; tkOp ")"] (XCall (XSliceOf (XName "byte")) [XName "nil"]).
Proof.
  split; [reflexivity|]. exists 1%nat, 9%nat. intros n rest L. do 6 (destruct n as [|n]; [lia|]). set (m := S (S (S n))). cbn [app Nat.add].
  assert (X : pOperand (S (S (S (S m)))) (tkOp "[" :: tkOp "]" :: tkId "byte" :: tkOp "(" :: tkId "nil" :: tkOp ")" :: rest) = Some (XSliceOf (XName "byte"), tkOp "(" :: tkId "nil" :: tkOp ")" :: rest)) by reflexivity.
  assert (Y : pArgs (S (S (S m))) (tkId "nil" :: tkOp ")" :: rest) = Some ([XName "nil"], rest)) by reflexivity.
  remember (S (S (S m))) as q. cbn [pUn]. change (isUnary "[") with false. cbn match. rewrite X. cbn [pPost isOp tl]. change (String.eqb "(" ".") with false. change (String.eqb "(" "(") with true. cbn match. rewrite Y. reflexivity.
Qed.

Definition byteXs (b : bytes) : list gx := map (fun x => XNum (showByte x)) b.
Lemma lit_bytes : forall b, litR (byteToks b) (byteXs b).
Proof.
  intros [|x b]; [apply lit_nil|]. revert x. induction b as [|y b IH]; intros x.
  - apply lit_one. apply E_prim; [apply prim_num|lia].
  - change (byteToks (x :: y :: b)) with ([tkNum (showByte x)] ++ tkOp "," :: byteToks (y :: b)). change (byteXs (x :: y :: b)) with (XNum (showByte x) :: byteXs (y :: b)).
    apply lit_cons; [apply E_prim; [apply prim_num|lia]|apply IH].
Qed.
Definition dataX (d : option bytes) : gx :=
  match d with None => XCall (XSliceOf (XName "byte")) [XName "nil"] | Some b => XLit (XSliceOf (XName "byte")) (byteXs b) end.
Lemma prim_data : forall d, prim (dataToks d) (dataX d).
Proof.
  intros [b|]; [|apply prim_nilbytes]. apply (prim_lit [tkOp "["; tkOp "]"; tkId "byte"]); [reflexivity|apply T_slice, T_name|apply lit_bytes].
Qed.
Lemma data_mean : forall d, dataOk d -> bytesOf (dataX d) = Some (plainData d).
Proof.
  intros [b|] F; [|reflexivity]. unfold dataOk in F. cbn [plainData dataX bytesOf isBytes String.eqb Ascii.eqb Bool.eqb] in *.
  unfold byteXs.
  induction F as [|x b H F IH]; [reflexivity|]. cbn [map all byteOf]. destruct (byte_num x H) as (c & s & _ & _ & _ & N). rewrite N, IH.
  replace ((0 <=? x) && (x <? 256)) with true by lia. reflexivity.
Qed.

(** * The cases of a test *)
Definition caseToks (v : option bytes * cons) : list token :=
  tkOp "{" :: tkId "Data" :: tkOp ":" :: dataToks (fst v) ++ [tkOp ","; tkOp "}"; tkOp ","].
Definition caseX (v : option bytes * cons) : gx := XElem [XKey (XName "Data") (dataX (fst v))].
Lemma case_run : forall v, dataOk (fst v) -> run (sGap false) (caseS v) = (caseToks v, sGap false).
Proof.
  intros v F. pose proof (hole_dataS _ F) as H. unfold caseS, caseToks. generalize dependent (dataToks (fst v)). intros ts H. generalize dependent (dataS (fst v)). intros s H.
  change (run (sGap false) (flat [Fix_ "{"; Fix_ nl; Fix_ "Data: "; Hole s ts; Fix_ ","; Fix_ nl; Fix_ "},"; Fix_ nl]) = (tkOp "{" :: tkId "Data" :: tkOp ":" :: ts ++ [tkOp ","; tkOp "}"; tkOp ","], sGap false)).
  rewrite run_pieces; [lexToks|holes|lexFits].
Qed.
Lemma case_elem : forall v, elemsR (caseToks v) [caseX v].
Proof.
  intros v. unfold caseToks, caseX. pose proof (prim_data (fst v)) as P. generalize dependent (dataX (fst v)). intros x P. generalize dependent (dataToks (fst v)). intros ts P.
  destruct (elem_step ts x "," (E_prim 1 _ _ P ltac:(lia)) eq_refl) as (k & H). exists (S (S (S (S (S (S (S k))))))). intros n rest L. cbn [List.length Nat.add app]. rewrite <- app_assoc. cbn [app].
  assert (X : pElem n (tkOp "{" :: tkId "Data" :: tkOp ":" :: ts ++ tkOp "," :: tkOp "}" :: tkOp "," :: rest) = Some (XElem [XKey (XName "Data") x], tkOp "," :: rest)).
  { do 7 (destruct n as [|n]; [lia|]). cbn [pElem]. change (isOp "{" (tkOp "{" :: tkId "Data" :: tkOp ":" :: ts ++ tkOp "," :: tkOp "}" :: tkOp "," :: rest)) with true. cbn match. cbn [tl].
    set (m := S (S (S (S n)))) in *. cbn [pElems]. change (isOp "}" (tkId "Data" :: tkOp ":" :: ts ++ tkOp "," :: tkOp "}" :: tkOp "," :: rest)) with false. cbn match.
    assert (Y : pElem (S m) (tkId "Data" :: tkOp ":" :: ts ++ tkOp "," :: tkOp "}" :: tkOp "," :: rest) = Some (XName "Data", tkOp ":" :: ts ++ tkOp "," :: tkOp "}" :: tkOp "," :: rest)) by reflexivity.
    rewrite Y. change (isOp ":" (tkOp ":" :: ts ++ tkOp "," :: tkOp "}" :: tkOp "," :: rest)) with true. cbn match. cbn [tl]. rewrite H by (unfold m; lia).
    change (isOp "}" (tkOp "," :: tkOp "}" :: tkOp "," :: rest)) with false. cbn match. rewrite expect_hit. reflexivity. }
  cbn [pElems]. change (isOp "}" (tkOp "{" :: tkId "Data" :: tkOp ":" :: ts ++ tkOp "," :: tkOp "}" :: tkOp "," :: rest)) with false. cbn match. rewrite X.
  change (isOp ":" (tkOp "," :: rest)) with false. cbn match. change (isOp "}" (tkOp "," :: rest)) with false. cbn match. rewrite expect_hit. destruct (pElems n rest) as [[]|]; reflexivity.
Qed.
Lemma cases_run : forall vs, Forall (fun v => dataOk (fst v)) vs -> run (sGap false) (join (map caseS vs)) = (flat_map caseToks vs, sGap false).
Proof.
  induction 1 as [|v vs F1 F2 IH]; [reflexivity|]. cbn [map join flat_map]. rewrite run_app, case_run by auto. cbn [fst snd]. rewrite IH. reflexivity.
Qed.
Lemma cases_elems : forall vs, elemsR (flat_map caseToks vs) (map caseX vs).
Proof. induction vs as [|v vs IH]; [apply elems_nil|]. cbn [flat_map map]. exact (elems_app _ [caseX v] _ _ (case_elem v) IH). Qed.
Lemma cases_mean : forall vs, Forall (fun v => dataOk (fst v)) vs -> all (caseOf "Data") (map caseX vs) = Some (map (fun v => plainData (fst v)) vs).
Proof. induction 1 as [|v vs F1 F2 IH]; [reflexivity|]. cbn [map all]. unfold caseX at 1. cbn [caseOf]. change (String.eqb "Data" "Data") with true. cbn match. rewrite data_mean by auto. now rewrite IH. Qed.

(** * Statements *)
Lemma S_range : forall ls l es e bs b, readsL ls l -> readsE 1 es e -> blk bs b -> oneS (tkKey "for" :: ls ++ tkOp ":=" :: tkKey "range" :: es ++ bs) (YRange l e b).
Proof.
  intros ls l es e bs b (_ & k & H) (_ & k1 & H1) (O & k2 & H2). split; [discriminate|]. split; [reflexivity|]. exists (S (k + k1 + k2)). intros [|n] rest L _; [lia|].
  repeat (cbn [app]; rewrite <- ?app_assoc). cbn [pStmt isOp isKey tl]. change (String.eqb "for" "var") with false. change (String.eqb "for" "if") with false. change (String.eqb "for" "for") with true. cbn match.
  rewrite H by (try lia; try reflexivity; cbn; lia). cbn [isOp isKey tl]. change (String.eqb ":=" ":=") with true. change (String.eqb "range" "range") with true. cbn match.
  assert (B : noPost (bs ++ rest) = true /\ (opPrec (bs ++ rest) < 1)%nat).
  { destruct bs as [|[x|x|x|x|x|] bs]; try discriminate. cbn [isOp] in O. apply String.eqb_eq in O. subst x. split; [reflexivity|cbn; lia]. }
  rewrite H1 by (try lia; tauto). rewrite H2 by lia. reflexivity.
Qed.
Lemma S_expr : forall ts x, idStart ts = true -> readsE 1 ts x -> oneS ts (YExpr x).
Proof.
  intros ts x ID E. destruct (L_one _ _ E) as (_ & k & H). destruct ts as [|[y|y|y|y|y|] ts]; try discriminate. split; [discriminate|]. split; [reflexivity|].
  exists (S k). intros [|n] rest L EN; [lia|]. apply endS_rest in EN as (E1 & E2 & E3 & E4 & E5 & E6 & _). cbn [app pStmt isOp isKey]. unfold pSimple. cbn [app] in H.
  rewrite H by (try lia; assumption). rewrite E4, E5, E6. reflexivity.
Qed.
Lemma T_struct : forall ts fs, fieldsR ts fs -> readsT (tkKey "struct" :: tkOp "{" :: ts ++ [tkOp "}"]) (XStructOf fs).
Proof.
  intros ts fs (k & P). exists (S (List.length fs + S k))%nat. intros [|n] rest L _; [lia|]. cbn [app]. rewrite <- app_assoc. cbn [app].
  assert (X : pFields n (ts ++ tkOp "}" :: rest) = Some (fs, rest)).
  { replace n with (List.length fs + (n - List.length fs))%nat by lia. rewrite P by lia. destruct (n - List.length fs)%nat as [|m] eqn:M; [lia|]. cbn. now rewrite app_nil_r. }
  cbn [pType isOp isKey String.eqb Ascii.eqb Bool.eqb tl]. rewrite expect_hit, X. reflexivity.
Qed.
Lemma blk_last : forall ts ys us y, stm ts ys -> oneS us y -> blk (tkOp "{" :: ts ++ us ++ [tkOp "}"]) (ys ++ [y]).
Proof.
  intros ts ys us y (k & H) (NE & ST & k2 & H2). split; [reflexivity|]. exists (S (S (List.length ys + k + k2))). intros [|n] rest L; [lia|]. cbn [app pBlock]. rewrite expect_hit.
  repeat (rewrite <- ?app_assoc; cbn [app]). replace n with (List.length ys + S (n - List.length ys - 1))%nat by lia. rewrite H by lia. cbn [pStmts].
  pose proof (startsS_app us (tkOp "}" :: rest) NE) as SA. rewrite ST in SA. unfold startsS in SA.
  apply negb_true_iff, orb_false_elim in SA as [SA SB]. rewrite SA, SB. rewrite H2 by (try lia; reflexivity). cbn [isOp]. change (String.eqb "}" "}") with true. cbn match. rewrite expect_hit. reflexivity.
Qed.

(** [_, err := callee(arg)] and [if err != nil { s }]. *)
Definition callToks (cf : string) (arg : list token) : list token := ([tkId "_"] ++ tkOp "," :: [tkId "err"]) ++ tkOp ":=" :: ([tkId cf] ++ tkOp "(" :: arg ++ [tkOp ")"]).
Definition callY (cf : string) (arg : gx) : gs := YAssign ":=" [XName "_"; XName "err"] [XCall (XName cf) [arg]].
Lemma call_reads : forall cf ts x, prim ts x -> oneS (callToks cf ts) (callY cf x).
Proof.
  intros cf ts x P. apply S_assign; [reflexivity|reflexivity| |].
  - apply L_cons; [apply E_prim; [prims|lia]|]. apply L_one. apply E_prim; [prims|lia].
  - apply L_one. apply E_prim; [|lia]. apply prim_call; [prims|]. apply A_one. apply E_prim; [exact P|lia].
Qed.
Definition failToks (ts : list token) : list token := tkKey "if" :: ([tkId "err"] ++ tkOp "!=" :: [tkId "nil"]) ++ (tkOp "{" :: ts ++ [tkOp "}"]).
Definition failY (y : gs) : gs := YIf (XBin "!=" (XName "err") (XName "nil")) [y].
Lemma fail_reads : forall ts y, oneS ts y -> oneS (failToks ts) (failY y).
Proof.
  intros ts y H. apply S_if; [|now apply blk_one].
  apply eq_prims; [prims|prims|cbn; lia].
Qed.

(** * Declarations *)
Ltac lexLong := unfold nl, tab; cbn [toks]; lexFixed; cbn [finish fst snd]; rewrite ?pre_pre; unfold pre; cbn [fst snd]; f_equal; repeat (rewrite ?app_nil_r, <- ?app_assoc; cbn [app]); reflexivity.
Definition declaresBy {A} (f : gd -> option A) (s : string) (hs : list A) : Prop :=
  exists ts ys, run (sGap false) s = (ts, sGap false) /\ declsR ts ys /\ all f ys = Some hs /\ isKey "import" ts = false.
Lemma by_nil : forall A (f : gd -> option A), declaresBy f "" [].
Proof. intros A f. exists [], []. split; [reflexivity|]. split; [|split; reflexivity]. exists 0%nat. intros n rest _. cbn. now destruct (pDecls n rest). Qed.
Lemma by_cat : forall A (f : gd -> option A) a fs b gs, declaresBy f a fs -> declaresBy f b gs -> declaresBy f (a ++ b)%string (fs ++ gs).
Proof.
  intros A f a fs b gs (ts & ys & R1 & (k1 & S1) & E1 & I1) (us & zs & R2 & (k2 & S2) & E2 & I2). exists (ts ++ us), (ys ++ zs). split; [|split; [|split]].
  - rewrite run_app, R1. cbn [fst snd]. rewrite R2. reflexivity.
  - exists (k1 + k2)%nat. intros n rest L. rewrite app_length, <- Nat.add_assoc, <- app_assoc. rewrite S1 by lia. rewrite S2 by lia. destruct (pDecls n rest) as [b0|]; [|reflexivity]. now rewrite app_assoc.
  - rewrite all_app, E1, E2. reflexivity.
  - destruct ts; auto.
Qed.
Lemma by_one : forall A (f : gd -> option A) ps ts y d, Forall good ps -> fits (sGap false) ps = true -> toks (sGap false) ps = (ts ++ [tkOp ";"], sGap false) ->
  ts <> [] -> declR ts y -> f y = Some d -> isKey "import" ts = false -> declaresBy f (flat ps) [d].
Proof.
  intros A f ps ts y d G F T N (k & R) D I. exists (ts ++ [tkOp ";"]), [y]. split; [rewrite run_pieces; auto|]. split; [|split].
  - exists k. intros n rest L. cbn [List.length Nat.add]. rewrite <- app_assoc. cbn [app pDecls]. destruct ts as [|t0 ts]; [congruence|]. cbn [app].
    change (t0 :: ts ++ tkOp ";" :: rest) with ((t0 :: ts) ++ tkOp ";" :: rest). rewrite R by (try reflexivity; lia). rewrite expect_hit. reflexivity.
  - cbn. now rewrite D.
  - destruct ts as [|t0 ts]; [congruence|exact I].
Qed.

Lemma tail_app : forall a b, identTail (a ++ b)%string = identTail a && identTail b.
Proof. induction a as [|c a IH]; intros b; cbn [append identTail]; [reflexivity|]. now rewrite IH, andb_assoc. Qed.
Lemma name_Parse : forall x, identTail x = true -> goName ("Parse" ++ x) = true.
Proof. intros x H. cbn [append goName identTail]. rewrite H. reflexivity. Qed.
Lemma name_Fuzz : forall x, identTail x = true -> goName ("Fuzz" ++ x) = true.
Proof. intros x H. cbn [append goName identTail]. rewrite H. reflexivity. Qed.
Lemma name_Test : forall x, identTail x = true -> goName ("Test" ++ x ++ "Corpus") = true.
Proof. intros x H. cbn [append goName identTail]. rewrite tail_app, H. reflexivity. Qed.

Definition testBody (cf : string) (cts : list token) : list token :=
  (([tkId "cases"] ++ tkOp ":=" :: ((tkOp "[" :: tkOp "]" :: (tkKey "struct" :: tkOp "{" :: [tkId "Data"; tkOp "["; tkOp "]"; tkId "byte"; tkOp ";"] ++ [tkOp "}"])) ++ tkOp "{" :: cts ++ [tkOp "}"])) ++ [tkOp ";"])
  ++ ((tkKey "for" :: ([tkId "_"] ++ tkOp "," :: [tkId "c"]) ++ tkOp ":=" :: tkKey "range" :: [tkId "cases"] ++
        (tkOp "{" :: ((callToks cf ([tkId "c"] ++ [tkOp "."; tkId "Data"]) ++ [tkOp ";"]) ++ (failToks (([tkId "t"] ++ [tkOp "."; tkId "Fatal"]) ++ tkOp "(" :: [tkId "err"] ++ [tkOp ")"]) ++ [tkOp ";"])) ++ [tkOp "}"])) ++ [tkOp ";"]).
Definition tableX (es : list gx) : gx := XLit (XSliceOf (XStructOf [("Data", XSliceOf (XName "byte"))])) es.
Definition testY (cf : string) (es : list gx) : list gs :=
  [YAssign ":=" [XName "cases"] [tableX es]] ++
  [YRange [XName "_"; XName "c"] (XName "cases") ([callY cf (XSel (XName "c") "Data")] ++ [failY (YExpr (XCall (XSel (XName "t") "Fatal") [XName "err"]))])].
Lemma test_body : forall cf cts es, elemsR cts es -> stm (testBody cf cts) (testY cf es).
Proof.
  intros cf cts es E. apply stm_app; apply stm_one.
  - apply S_assign; [reflexivity|reflexivity|apply L_one, E_prim; [prims|lia]|]. apply L_one, E_prim; [|lia]. apply prim_lit; [reflexivity| |now apply lit_elems].
    apply T_slice. apply T_struct. exists 2%nat. intros n rest L. do 2 (destruct n as [|n]; [lia|]). cbn [List.length Nat.add app]. set (m := S n). cbn [pFields isOp name1].
    assert (X : pType (S m) (tkOp "[" :: tkOp "]" :: tkId "byte" :: tkOp ";" :: rest) = Some (XSliceOf (XName "byte"), tkOp ";" :: rest)) by reflexivity.
    rewrite X. cbn [isOp String.eqb Ascii.eqb Bool.eqb]. rewrite expect_hit. remember (S m) as q. destruct (pFields q rest) as [[]|]; reflexivity.
  - apply S_range; [apply L_cons; [apply E_prim; [prims|lia]|apply L_one, E_prim; [prims|lia]]|apply E_prim; [prims|lia]|].
    apply blk_stm. apply stm_app; apply stm_one.
    + apply call_reads. apply prim_sel. prims.
    + apply fail_reads. apply S_expr; [reflexivity|]. apply E_prim; [|lia]. apply prim_call; [apply prim_sel; prims|]. apply A_one. apply E_prim; [prims|lia].
Qed.

Lemma eqb_no : forall a b, a <> b -> String.eqb a b = false.
Proof. intros a b H. destruct (String.eqb a b) eqn:E; auto. apply String.eqb_eq in E. contradiction. Qed.
Lemma parse_locals : forall x l, In l [["t"; "cases"; "c"; "err"]; ["data"; "err"]] -> locals l ("Parse" ++ x) = true.
Proof. intros x l [<-|[<-|[]]]; reflexivity. Qed.

Definition testH (ty : string) (ds : list bytes) : harness := mkHarness ("Test" ++ ty ++ "Corpus") ds ("Parse" ++ ty).
Lemma test_decl : forall camel s, identTail (camel (fst s)) = true -> Forall (fun v => dataOk (fst v)) (snd s) -> constrainedRaw (snd s) = false ->
  declaresBy testOf (testS camel s) [testH (camel (fst s)) (map (fun v => plainData (fst v)) (snd s))].
Proof.
  intros camel [x vs] I F C. unfold testS. cbn [fst snd] in *. rewrite C. clear C. set (ty := camel x) in *. clearbody ty.
  pose proof (cases_run vs F) as CR. pose proof (cases_elems vs) as CE. pose proof (cases_mean vs F) as CM.
  generalize dependent (map (fun v : option bytes * cons => plainData (fst v)) vs). generalize dependent (map caseX vs). generalize dependent (flat_map caseToks vs). generalize dependent (join (map caseS vs)).
  intros cs cts CR es CE ds CM. pose proof (name_Test ty I) as G1. pose proof (name_Parse ty I) as G2. unfold testH.
  pose proof (parse_locals ty ["t"; "cases"; "c"; "err"] (or_introl eq_refl)) as PL.
  assert (PF : prefix "Test" ("Test" ++ ty ++ "Corpus") = true) by (destruct ty; reflexivity).
  match goal with |- declaresBy _ ?a _ => replace a with (join ["func "; ("Test" ++ ty ++ "Corpus")%string; "(t *testing.T) {"; nl; "cases := []struct{"; nl; "Data []byte"; nl; "}{"; nl; cs; "}"; nl; "for _, c := range cases {"; nl;
    "_, err := "; ("Parse" ++ ty)%string; "(c.Data)"; nl; "if err != nil { t.Fatal(err) }"; nl; "}"; nl; "}"; nl; nl]) by (cbn [join]; rewrite !append_nil, !append_assoc; reflexivity) end.
  set (fn := ("Test" ++ ty ++ "Corpus")%string) in *. set (cf := ("Parse" ++ ty)%string) in *. clearbody fn cf.
  destruct (blk_stm _ _ (test_body cf cts es CE)) as (_ & k2 & R2).
  apply (by_one _ testOf [Fix_ "func "; Hole fn [tkId fn]; Fix_ "(t *testing.T) {"; Fix_ nl; Fix_ "cases := []struct{"; Fix_ nl; Fix_ "Data []byte"; Fix_ nl; Fix_ "}{"; Fix_ nl; Lines cs cts; Fix_ "}"; Fix_ nl; Fix_ "for _, c := range cases {"; Fix_ nl;
    Fix_ "_, err := "; Hole cf [tkId cf]; Fix_ "(c.Data)"; Fix_ nl; Fix_ "if err != nil { t.Fatal(err) }"; Fix_ nl; Fix_ "}"; Fix_ nl; Fix_ "}"; Fix_ nl; Fix_ nl]
    (tkKey "func" :: tkId fn :: tkOp "(" :: tkId "t" :: tkOp "*" :: tkId "testing" :: tkOp "." :: tkId "T" :: tkOp ")" :: (tkOp "{" :: testBody cf cts ++ [tkOp "}"]))
    (YFunc None fn [("t", XUn "*" (XSel (XName "testing") "T"))] [] (testY cf es))).
  - holes.
  - lexFits.
  - unfold testBody, callToks, failToks. lexLong.
  - discriminate.
  - exists (S (S (S (S k2)))). intros n rest L O. cbn [app]. unfold pDecl. cbn [isKey isOp String.eqb Ascii.eqb Bool.eqb tl name1]. rewrite expect_hit.
    assert (PP : forall us, pParams n (tkId "t" :: tkOp "*" :: tkId "testing" :: tkOp "." :: tkId "T" :: tkOp ")" :: us) = Some ([("t", XUn "*" (XSel (XName "testing") "T"))], us)).
    { intros us. do 4 (destruct n as [|n]; [lia|]). reflexivity. }
    rewrite PP. cbn [pResults isOp String.eqb Ascii.eqb Bool.eqb]. unfold pResults. cbn [isOp String.eqb Ascii.eqb Bool.eqb]. specialize (R2 n rest). cbn [app] in R2. rewrite R2 by lia. reflexivity.
  - unfold testY. cbn [app testOf tableOf tableX isBytes String.eqb Ascii.eqb Bool.eqb]. rewrite CM. unfold callY, failY. cbn [callOf failOf String.eqb Ascii.eqb Bool.eqb andb]. rewrite PF, PL. reflexivity.
  - reflexivity.
Qed.

Definition fuzzH (ty : string) : harness := mkHarness ("Fuzz" ++ ty) [] ("Parse" ++ ty).
Lemma num_return : forall z, oneS (tkKey "return" :: [tkNum z]) (YReturn [XNum z]).
Proof. intros z. apply S_return. apply L_one, E_prim; [prims|lia]. Qed.
Lemma fuzz_decl : forall camel s, identTail (camel (fst s)) = true -> constrainedRaw (snd s) = false -> declaresBy fuzzOf (fuzzS camel s) [fuzzH (camel (fst s))].
Proof.
  intros camel [x vs] I C. unfold fuzzS. cbn [fst snd] in *. rewrite C. clear C. set (ty := camel x) in *. clearbody ty.
  pose proof (name_Fuzz ty I) as G1. pose proof (name_Parse ty I) as G2. unfold fuzzH.
  pose proof (parse_locals ty ["data"; "err"] (or_intror (or_introl eq_refl))) as PL. assert (PF : prefix "Fuzz" ("Fuzz" ++ ty) = true) by (destruct ty; reflexivity).
  match goal with |- declaresBy _ ?a _ => replace a with (join ["func "; ("Fuzz" ++ ty)%string; "(data []byte) int {"; nl; "_, err := "; ("Parse" ++ ty)%string; "(data)"; nl; "if err != nil { return 0 }"; nl; "return 1"; "}"; nl; nl])
    by (cbn [join]; rewrite !append_nil, !append_assoc; reflexivity) end.
  set (fn := ("Fuzz" ++ ty)%string) in *. set (cf := ("Parse" ++ ty)%string) in *. clearbody fn cf.
  assert (B : blk (tkOp "{" :: ((callToks cf [tkId "data"] ++ [tkOp ";"]) ++ (failToks (tkKey "return" :: [tkNum "0"]) ++ [tkOp ";"])) ++ (tkKey "return" :: [tkNum "1"]) ++ [tkOp "}"])
                  (([callY cf (XName "data")] ++ [failY (YReturn [XNum "0"])]) ++ [YReturn [XNum "1"]])).
  { apply blk_last; [apply stm_app; apply stm_one|apply num_return]. - apply call_reads. prims. - apply fail_reads, num_return. }
  destruct B as (_ & k2 & R2). set (bt := ((callToks cf [tkId "data"] ++ [tkOp ";"]) ++ (failToks (tkKey "return" :: [tkNum "0"]) ++ [tkOp ";"])) ++ (tkKey "return" :: [tkNum "1"]) ++ [tkOp "}"]) in *.
  apply (by_one _ fuzzOf [Fix_ "func "; Hole fn [tkId fn]; Fix_ "(data []byte) int {"; Fix_ nl; Fix_ "_, err := "; Hole cf [tkId cf]; Fix_ "(data)"; Fix_ nl; Fix_ "if err != nil { return 0 }"; Fix_ nl; Fix_ "return 1"; Fix_ "}"; Fix_ nl; Fix_ nl]
    (tkKey "func" :: tkId fn :: tkOp "(" :: tkId "data" :: tkOp "[" :: tkOp "]" :: tkId "byte" :: tkOp ")" :: tkId "int" :: tkOp "{" :: bt)
    (YFunc None fn [("data", XSliceOf (XName "byte"))] [XName "int"] (([callY cf (XName "data")] ++ [failY (YReturn [XNum "0"])]) ++ [YReturn [XNum "1"]]))).
  - holes.
  - lexFits.
  - unfold bt, callToks, failToks. lexLong.
  - discriminate.
  - exists (S (S (S (S k2)))). intros n rest L O. cbn [app]. unfold pDecl. cbn [isKey isOp String.eqb Ascii.eqb Bool.eqb tl name1]. rewrite expect_hit.
    assert (PP : forall us, pParams n (tkId "data" :: tkOp "[" :: tkOp "]" :: tkId "byte" :: tkOp ")" :: us) = Some ([("data", XSliceOf (XName "byte"))], us)).
    { intros us. do 4 (destruct n as [|n]; [lia|]). reflexivity. }
    rewrite PP.
    assert (RS : forall us, pResults n (tkId "int" :: tkOp "{" :: us) = Some ([XName "int"], tkOp "{" :: us)). { intros us. do 4 (destruct n as [|n]; [lia|]). reflexivity. }
    rewrite RS. cbn [app] in R2. specialize (R2 n rest). cbn [app] in R2. rewrite R2 by lia. reflexivity.
  - unfold callY, failY. cbn [app fuzzOf callOf failOf String.eqb Ascii.eqb Bool.eqb andb]. rewrite PF, PL. reflexivity.
  - reflexivity.
Qed.

(** * Files *)
Definition harnessOf (e : emitted) : harness := mkHarness (eName e) (eCases e) (eCallee e).
Lemma cat2 : forall a b, cat [a; b] = (a ++ b)%string.
Proof. reflexivity. Qed.
Lemma cat3 : forall a b c, cat [a; b; c] = (a ++ b ++ c)%string.
Proof. reflexivity. Qed.
Definition rawOk (camel : string -> string) (s : rawSuite) : Prop := identTail (camel (fst s)) = true /\ Forall (fun v => dataOk (fst v)) (snd s).
Lemma constrained_plain : forall vs, constrained (map (fun v : option bytes * cons => (plainData (fst v), snd v)) vs) = constrainedRaw vs.
Proof. induction vs as [|v vs IH]; [reflexivity|]. cbn [map constrained constrainedRaw existsb snd]. unfold constrained, constrainedRaw in IH. now rewrite IH. Qed.
Lemma tests_declare : forall camel c, Forall (rawOk camel) c -> declaresBy testOf (join (map (testS camel) c)) (map harnessOf (CorpusTests camel (plain c))).
Proof.
  intros camel c. induction 1 as [|s c (I & F) _ IH]; [apply by_nil|]. cbn [map join plain CorpusTests flat_map]. fold (plain c). rewrite map_app. apply by_cat; [|exact IH].
  cbn [svectors stype]. rewrite constrained_plain. destruct (constrainedRaw (snd s)) eqn:C.
  - unfold testS. rewrite C. apply by_nil.
  - cbn [map harnessOf eName eCases eCallee]. rewrite map_map. cbn [fst]. rewrite cat2, cat3. now apply test_decl.
Qed.
Lemma fuzzers_declare : forall camel c, Forall (rawOk camel) c -> declaresBy fuzzOf (join (map (fuzzS camel) c)) (map harnessOf (Fuzzers camel (plain c))).
Proof.
  intros camel c. induction 1 as [|s c (I & F) _ IH]; [apply by_nil|]. cbn [map join plain Fuzzers flat_map]. fold (plain c). rewrite map_app. apply by_cat; [|exact IH].
  cbn [svectors stype]. rewrite constrained_plain. destruct (constrainedRaw (snd s)) eqn:C.
  - unfold fuzzS. rewrite C. apply by_nil.
  - cbn [map harnessOf eName eCases eCallee]. rewrite !cat2. now apply fuzz_decl.
Qed.

Lemma read_by : forall A (f : gd -> option A) hd pkg s hs, run (sGap false) hd = ([tkKey "package"; tkId pkg; tkOp ";"], sGap false) -> declaresBy f s hs ->
  exists k, forall n, (k <= n)%nat -> ('(p, ds) <-? pFile n (tokens (hd ++ s)) ;; 'hs <-? all f ds ;; Some (p, hs)) = Some (pkg, hs).
Proof.
  intros A f hd pkg s hs HD (ts & ys & R & (k & D) & AF & I). exists (S (S (List.length ys + k))). intros n L. unfold tokens.
  rewrite run_app, HD. cbn [fst snd]. rewrite R. unfold pre. cbn [fst snd finish app]. rewrite !app_nil_r. unfold pFile. cbn [app isKey String.eqb Ascii.eqb Bool.eqb tl name1]. rewrite expect_hit.
  destruct n as [|n]; [lia|]. assert (PI : pImports (S n) ts = Some ts) by (cbn [pImports]; now rewrite I). rewrite PI.
  replace (S n) with (List.length ys + (S n - List.length ys))%nat by lia. rewrite <- (app_nil_r ts). rewrite D by lia.
  destruct (S n - List.length ys)%nat as [|m] eqn:M; [lia|]. cbn [pDecls]. rewrite app_nil_r, AF. reflexivity.
Qed.
