(** Properties C40-C46, C49 and C50: parsing of trunnel source.

    [returns data r] says that [parse.String] returns [r] on the bytes [data];
    [failed] is an error without a file.  [denotes] (SyntaxSpec.v) is the
    language as a context-free grammar; [utf8] is the encoding of code points. *)
From Coq Require Import ZArith String Ascii List Bool Lia.
From Verif Require Import Base Ast PegModel PegGrammar PegTop SyntaxSpec SyntaxForm PegUtf8 PegExact PegSpace PegShape PegPrint
  PegLiteral PegRestore PegCount.
Import ListNotations.
Open Scope string_scope.
Open Scope list_scope.
Open Scope Z_scope.

(** A source with most of the syntax. *)
Definition sample : string :=
"const MAX = 0x1F; // a constant
context ctx { u8 n; }
extern struct other with context ctx;
struct outer {
  u16 tag IN [1..MAX, 40];
  struct inner { u8 a; struct deep { u32 b[2]; } d; } i;
  union u [tag] with length ctx.n {
    1, 3..5: struct other o; ...;
    6: u8 rest[];
    default: fail;
  };
  /* the end */ eos;
};
trunnel options a, b;
".
Definition sampleFile : file :=
  mkFile [mkConst "MAX" 31] [mkCtx "ctx" [("n", TInt 8 None)]]
    [mkStruct "other" ["ctx"] None;
     mkStruct "outer" [] (Some
       [MField "tag" (TInt 16 (Some [mkRange (ILit 1) (Some (IConst "MAX")); mkRange (ILit 40) None]));
        MField "i" (TStruct "inner");
        MUnion "u" (mkRef "" "tag") (Some (LRef (mkRef "ctx" "n")))
          [UCase (Some [mkRange (ILit 1) None; mkRange (ILit 3) (Some (ILit 5))]) [MField "o" (TStruct "other"); MIgnore];
           UCase (Some [mkRange (ILit 6) None]) [MField "rest" (TVar (TInt 8 None) None)];
           UCase None [MFail]];
        MEOS]);
     mkStruct "deep" [] (Some [MField "b" (TFixed (TInt 32 None) (ILit 2))]);
     mkStruct "inner" [] (Some [MField "a" (TInt 8 None); MField "d" (TStruct "deep")])]
    [mkPragma "options" ["a"; "b"]].
Lemma sample_parses : returns (textOf sample) (Ok sampleFile).
Proof. apply (returns_some _ 2000%nat). vm_compute. reflexivity. Qed.

(** C40: parsing always ends, with a file or an error, and never panics. *)
Theorem C40_always_returns : forall data, (exists f, returns data (Ok f)) \/ returns data failed.
Proof. exact returns_either. Qed.
Print Assumptions C40_always_returns.
Theorem C40_one_result : forall data r1 r2, returns data r1 -> returns data r2 -> r1 = r2.
Proof. exact returns_fun. Qed.
Print Assumptions C40_one_result.
Example C40_case : returns (textOf sample) (Ok sampleFile) /\ returns (textOf "struct x { u8 }") failed.
Proof. split; [exact sample_parses|]. apply (returns_some _ 2000%nat). vm_compute. reflexivity. Qed.

(** C41: a failed match changes neither the position nor the inline structs
    recorded so far. *)
Theorem C41_failure_restores : forall rules n e f s v f' s', parseExpr rules n e f s = Ok (false, v, f', s') ->
  rest s' = rest s /\ ling s' = ling s /\ exists es, errs s' = errs s ++ es.
Proof. intros rules n e f s v f' s' H. exact (proj2 (proj1 (keeps_all rules n) _ _ _ _ _ _ _ H) eq_refl). Qed.
Print Assumptions C41_failure_restores.
(** Every struct of the source is in the file exactly once: without comments,
    each opening brace is that of a struct, a context or a union of the file. *)
Theorem C41_declared_once : forall cs f, Forall scalar cs -> ~ In 47 cs -> returns (utf8 cs) (Ok f) -> braces cs = fileBraces f.
Proof. intros cs f S N H. apply denotes_braces; auto. apply returns_denotes. exact H. Qed.
Print Assumptions C41_declared_once.
Definition nested : list Z := points "struct a { struct b { u8 x; } y[2]; struct c { struct b z; } w; };".
Example C41_case : Forall scalar nested /\ ~ In 47 nested /\ braces nested = 3 /\
  exists f, returns (utf8 nested) (Ok f) /\ map sname (fstructs f) = ["a"; "b"; "c"].
Proof.
  split; [apply points_scalar; reflexivity|]. split; [intros H; apply (count_occ_In Z.eq_dec) in H; vm_compute in H; lia|].
  split; [reflexivity|]. eexists. split; [apply (returns_some _ 2000%nat); vm_compute; reflexivity|reflexivity].
Qed.

(** C42: the shape of parsed files. *)
Theorem C42_shape : forall data f, returns data (Ok f) -> shaped f.
Proof. intros data f H. apply returns_denotes in H. eapply denotes_shaped; eauto. Qed.
Print Assumptions C42_shape.
Example C42_case : returns (textOf sample) (Ok sampleFile) /\ ~ shaped (mkFile [mkConst "x" 1] [] [] []) /\
  ~ shaped (mkFile [] [] [mkStruct "s" [] (Some [MEOS; MEOS])] []).
Proof.
  split; [exact sample_parses|]. split.
  - intros (H & _). inversion H as [|? ? X]. destruct X as [X _]. cbn in X. destruct X. discriminate.
  - intros (_ & _ & H & _). inversion H as [|? ? X]. destruct X as (_ & _ & X). cbn in X.
    assert (F : forall ms, ~ Forall goodMember (MEOS :: ms)).
    { intros ms K. inversion K as [|? ? Y]. inversion Y as [? Z| |]. inversion Z. }
    inversion X as [ms K E|ms m K R E|ms K E]; subst.
    + exact (F _ K).
    + destruct ms as [|m0 [|m1 ms]]; cbn in E; try discriminate; inversion E; subst; [|destruct ms; discriminate]. exact (F _ K).
    + destruct ms as [|m0 [|m1 ms]]; cbn in E; try discriminate; inversion E; subst; [|destruct ms; discriminate]. exact (F _ K).
Qed.

(** C43: every file of that shape has a source. *)
Theorem C43_every_shape_has_a_source : forall f, shaped f -> exists data, returns data (Ok f).
Proof. intros f H. destruct (shaped_denotes f H) as [data D]. exists data. apply returns_denotes. exact D. Qed.
Print Assumptions C43_every_shape_has_a_source.
Theorem C43_image : forall f, (exists data, returns data (Ok f)) <-> shaped f.
Proof. intros f. split; [intros [data H]; exact (C42_shape data f H)|exact (C43_every_shape_has_a_source f)]. Qed.
Print Assumptions C43_image.
Example C43_case : shaped sampleFile.
Proof. exact (C42_shape _ _ sample_parses). Qed.

(** C44: constants, for every name and every sequence of letters, digits and
    underscores in the place of the number. *)
Theorem C44_literals : forall n lit f, isConstant n -> lit <> [] -> forallb later_ lit = true ->
  returns (utf8 (constSource n lit)) (Ok f) <->
  exists v, numeral lit v /\ v < 2 ^ 63 /\ f = mkFile [mkConst n v] [] [] [].
Proof. intros n lit f Hn N L. rewrite returns_denotes. apply const_denotes; auto. Qed.
Print Assumptions C44_literals.
Theorem C44_others_rejected : forall n lit, isConstant n -> lit <> [] -> forallb later_ lit = true ->
  (forall v, numeral lit v -> 2 ^ 63 <= v) -> returns (utf8 (constSource n lit)) failed.
Proof.
  intros n lit Hn N L U. apply returns_failed. intros f D. apply const_denotes in D; auto.
  destruct D as (v' & Nv' & L' & _). specialize (U _ Nv'). lia.
Qed.
Print Assumptions C44_others_rejected.
Example C44_case : isConstant "X_1" /\ numeral (points "0x7fffFFFFffffFFFF") (2 ^ 63 - 1) /\ numeral (points "9223372036854775808") (2 ^ 63) /\
  numeral (points "0755") 493 /\ returns (utf8 (constSource "X_1" (points "08"))) failed.
Proof.
  split; [split; reflexivity|]. split; [apply (numeral_hex (points "7fffFFFFffffFFFF")); [discriminate|reflexivity]|].
  split; [apply (numeral_dec (points "9223372036854775808")); [discriminate|reflexivity|discriminate]|].
  split; [apply (numeral_oct (points "755")); [discriminate|reflexivity]|].
  apply (returns_some _ 2000%nat). vm_compute. reflexivity.
Qed.

(** C45: other separators, same result. *)
Theorem C45_separators : forall cs cs' r, respaced cs cs' -> Forall scalar cs -> Forall scalar cs' ->
  returns (utf8 cs) r -> returns (utf8 cs') r.
Proof.
  intros cs cs' r E S S' H. destruct (returns_either (utf8 cs)) as [[f R]|R].
  - rewrite (returns_fun _ _ _ H R). apply returns_denotes. apply returns_denotes in R. eapply respaced_denotes; eauto.
  - rewrite (returns_fun _ _ _ H R). apply returns_failed. intros f D. apply (proj1 (returns_failed _) R f).
    eapply respaced_denotes; [apply respaced_sym; exact E| | |]; auto.
Qed.
Print Assumptions C45_separators.
Example C45_case : respaced (points "const A = 1; ") (points "const/* {;*/A // x = 2;" ++ [10] ++ points "= 1;//") /\
  returns (utf8 (points "const A = 1; ")) (Ok (mkFile [mkConst "A" 1] [] [] [])).
Proof.
  split; [|apply (returns_some _ 2000%nat); vm_compute; reflexivity].
  change (points "const/* {;*/A // x = 2;" ++ [10] ++ points "= 1;//") with
    (points "const" ++ (points "/*" ++ points " {;" ++ points "*/") ++ points "A" ++ ([32] ++ (points "//" ++ points " x = 2;" ++ [10])) ++
     points "=" ++ [32] ++ points "1;" ++ (points "//" ++ [])).
  change (points "const A = 1; ") with (points "const" ++ [32] ++ points "A" ++ [32] ++ points "=" ++ [32] ++ points "1;" ++ [32]).
  assert (W : forall w a b, noSeparator w = true -> respaced a b -> respaced (points w ++ a) (points w ++ b)).
  { intros w a b N R. unfold noSeparator in N. induction (points w) as [|c l IH]; auto. cbn [forallb] in N. apply andb_prop in N.
    destruct N as [N1 N2]. cbn [app]. constructor; auto. intros I. apply negb_true_iff in N1.
    assert (existsb (Z.eqb c) [32; 9; 13; 10; 47] = true) by (apply existsb_exists; exists c; split; auto; apply Z.eqb_refl). congruence. }
  assert (F : filler [32]) by (constructor; cbn; auto).
  apply W; [reflexivity|]. apply re_gap; auto.
  { apply filler_block. intros a b K. cbn in K. do 4 (destruct a as [|? a]; [discriminate|]; cbn in K; injection K as _ K).
    destruct a; discriminate. }
  apply W; [reflexivity|]. apply re_gap; auto.
  { apply filler_app; auto. apply filler_line. vm_compute. intuition discriminate. }
  apply W; [reflexivity|]. apply re_gap; auto. apply W; [reflexivity|]. apply re_last; [apply last_filler; auto|apply last_line; auto].
Qed.

(** C46: the files are all read and parsed, in order, or there is an error. *)
Theorem C46_all_files : forall d names fs, filesReturn d names (Ok fs) <->
  Forall2 (fun name f => exists data, d name = Some data /\ returns data (Ok f)) names fs.
Proof.
  intros d names fs. rewrite files_ok. unfold readAs.
  split; intros H; induction H as [|n f ns fs' (data & E & D)]; constructor; auto; exists data; split; auto; apply returns_denotes; exact D.
Qed.
Print Assumptions C46_all_files.
Theorem C46_or_error : forall d names,
  (exists fs, filesReturn d names (Ok fs)) \/
  ((exists e, filesReturn d names (Err e)) /\
   exists name, In name names /\ forall data, d name = Some data -> returns data failed).
Proof.
  intros d names. destruct (files_either d names) as [(fs & _ & R)|((nm & I & N) & E)]; eauto. right. split; auto.
  exists nm. split; auto. intros data D. apply returns_failed. intros f K. apply (N f). exists data. auto.
Qed.
Print Assumptions C46_or_error.
Definition twoFiles : disk := fun n => if String.eqb n "a" then Some (textOf "const A = 1;") else if String.eqb n "b" then Some (textOf "struct") else None.
Example C46_case : filesReturn twoFiles ["a"; "a"] (Ok [mkFile [mkConst "A" 1] [] [] []; mkFile [mkConst "A" 1] [] [] []]) /\
  filesReturn twoFiles ["a"; "b"] (Err "parse error") /\ filesReturn twoFiles ["c"; "a"] (Err "open").
Proof.
  assert (A : returns (textOf "const A = 1;") (Ok (mkFile [mkConst "A" 1] [] [] []))) by (apply (returns_some _ 2000%nat); vm_compute; reflexivity).
  assert (B : returns (textOf "struct") failed) by (apply (returns_some _ 2000%nat); vm_compute; reflexivity).
  destruct A as [n1 A]. destruct B as [n2 B]. split; [|split].
  - exists n1. intros m L. unfold parseFiles, parseFile. cbn [twoFiles String.eqb Ascii.eqb Bool.eqb]. rewrite !A; auto.
  - exists (Nat.max n1 n2). intros m L. unfold parseFiles, parseFile. cbn [twoFiles String.eqb Ascii.eqb Bool.eqb].
    rewrite A, B by lia. reflexivity.
  - exists 0%nat. reflexivity.
Qed.

(** C49: the accepted texts are those of the grammar, and the file is the one
    the grammar assigns. *)
Theorem C49_exact_language : forall data f, returns data (Ok f) <-> denotes data f.
Proof. exact returns_denotes. Qed.
Print Assumptions C49_exact_language.
Theorem C49_rejected : forall data, returns data failed <-> forall f, ~ denotes data f.
Proof. exact returns_failed. Qed.
Print Assumptions C49_rejected.
Theorem C49_unambiguous : forall data f1 f2, denotes data f1 -> denotes data f2 -> f1 = f2.
Proof. exact denotes_fun. Qed.
Print Assumptions C49_unambiguous.
Example C49_case : denotes (textOf sample) sampleFile /\ forall f, ~ denotes (textOf "struct x { u8 }") f.
Proof. split; [apply returns_denotes; exact sample_parses|]. apply returns_failed. exact (proj2 C40_case). Qed.

(** C50: an accepted source is UTF-8, also in its comments. *)
Theorem C50_utf8 : forall data f, returns data (Ok f) -> exists cs, Forall scalar cs /\ data = utf8 cs.
Proof. intros data f H. apply returns_denotes in H. destruct H as (cs & ds & inline & S & E & _). eauto. Qed.
Print Assumptions C50_utf8.
Definition latin : string := String.append "const A = 1; // " (String (ascii_of_nat 233) "").
Definition accented : list Z := points "const A = 1; // " ++ [233].
Example C50_case : returns (textOf latin) failed /\ returns (utf8 accented) (Ok (mkFile [mkConst "A" 1] [] [] [])).
Proof. split; apply (returns_some _ 2000%nat); vm_compute; reflexivity. Qed.
