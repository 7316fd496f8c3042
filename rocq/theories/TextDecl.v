(** Proofs that the text of generated declarations means the declarations of GenModel.v. *)
From Coq Require Import ZArith String Ascii List Bool Lia.
From Verif Require Import Base Ast IntervalsModel InspectModel InspectSpec GoLang GenModel GenCheck GoTypes CompileCheck GenPrint GenSimBody GoText TextModel TextLex TextParse TextSim.
From Verif Require GenSimProg.
Import ListNotations.
Open Scope string_scope.
Open Scope list_scope.
Open Scope Z_scope.

Ltac lexFits := unfold nl, tab; cbn [fits fixedNext]; lexFixed; reflexivity.
Ltac lexToks := unfold nl, tab; cbn [toks]; lexFixed; unfold pre; cbn [fst snd finish]; repeat (rewrite ?app_nil_r, <- ?app_assoc; cbn [app]); reflexivity.
Ltac prims := repeat first [apply prim_lencur | apply prim_name | apply prim_num | apply prim_str | assumption].

(** ** Fields *)
Definition fieldsR (ts : list token) (ys : list (string * gx)) : Prop :=
  exists k, forall n rest, (k <= n)%nat -> pFields (List.length ys + n) (ts ++ rest) = ('(b, us) <-? pFields n rest ;; Some (ys ++ b, us)).
Definition fieldsS (s : string) (fs : list (string * gtype)) : Prop :=
  exists ts ys, run (sGap false) s = (ts, sGap false) /\ fieldsR ts ys /\ all fieldOf ys = Some fs.
Lemma fields_nil : fieldsS "" [].
Proof. exists [], []. split; [reflexivity|]. split; [|reflexivity]. exists 0%nat. intros n rest _. cbn. now destruct (pFields n rest) as [[]|]. Qed.
Lemma fields_cat : forall a fs b gs, fieldsS a fs -> fieldsS b gs -> fieldsS (a ++ b)%string (fs ++ gs).
Proof.
  intros a fs b gs (ts & ys & R1 & (k1 & S1) & E1) (us & zs & R2 & (k2 & S2) & E2). exists (ts ++ us), (ys ++ zs). split; [|split].
  - rewrite run_app, R1. cbn [fst snd]. rewrite R2. reflexivity.
  - exists (k1 + k2)%nat. intros n rest L. rewrite app_length, <- Nat.add_assoc, <- app_assoc. rewrite S1 by lia. rewrite S2 by lia. destruct (pFields n rest) as [[b0 u0]|]; [|reflexivity]. now rewrite app_assoc.
  - rewrite all_app, E1, E2. reflexivity.
Qed.
Lemma field_line : forall f s g, goName f = true -> typeS s g -> fieldsS (join [tab; f; " "; s; nl]) [(f, g)].
Proof.
  intros f s g G (ts & t & H & (k & R) & T). exists (tkId f :: ts ++ [tkOp ";"]), [(f, t)]. split; [|split].
  - change (run (sGap false) (flat [Fix_ tab; Hole f [tkId f]; Fix_ " "; Hole s ts; Fix_ nl]) = (tkId f :: ts ++ [tkOp ";"], sGap false)).
    rewrite run_pieces; [lexToks|holes|lexFits].
  - exists (S k). intros n rest L. cbn [List.length Nat.add app]. rewrite <- app_assoc. cbn [pFields isOp name1 app]. rewrite R by (try reflexivity; lia). cbn [isOp String.eqb Ascii.eqb Bool.eqb]. rewrite expect_hit. now destruct (pFields n rest) as [[]|].
  - cbn [all]. unfold fieldOf. cbn [fst snd]. now rewrite T.
Qed.

(** ** Declarations *)
Definition declR (ts : list token) (d : gd) : Prop := exists k, forall n rest, (k <= n)%nat -> isOp ";" rest = true -> pDecl n (ts ++ rest) = Some (d, rest).
Definition declsR (ts : list token) (ds : list gd) : Prop :=
  exists k, forall n rest, (k <= n)%nat -> pDecls (List.length ds + n) (ts ++ rest) = ('b <-? pDecls n rest ;; Some (ds ++ b)).
Definition declares (s : string) (ds : list decl) : Prop :=
  exists ts ys, run (sGap false) s = (ts, sGap false) /\ declsR ts ys /\ all declOf ys = Some ds /\ isKey "import" ts = false.
Lemma declares_nil : declares "" [].
Proof. exists [], []. split; [reflexivity|]. split; [|split; reflexivity]. exists 0%nat. intros n rest _. cbn. now destruct (pDecls n rest). Qed.
Lemma declares_cat : forall a fs b gs, declares a fs -> declares b gs -> declares (a ++ b)%string (fs ++ gs).
Proof.
  intros a fs b gs (ts & ys & R1 & (k1 & S1) & E1 & I1) (us & zs & R2 & (k2 & S2) & E2 & I2). exists (ts ++ us), (ys ++ zs). split; [|split; [|split]].
  - rewrite run_app, R1. cbn [fst snd]. rewrite R2. reflexivity.
  - exists (k1 + k2)%nat. intros n rest L. rewrite app_length, <- Nat.add_assoc, <- app_assoc. rewrite S1 by lia. rewrite S2 by lia. destruct (pDecls n rest) as [b0|]; [|reflexivity]. now rewrite app_assoc.
  - rewrite all_app, E1, E2. reflexivity.
  - destruct ts; auto.
Qed.
Lemma declare_one : forall ps ts y d, Forall good ps -> fits (sGap false) ps = true -> toks (sGap false) ps = (ts ++ [tkOp ";"], sGap false) ->
  ts <> [] -> declR ts y -> declOf y = Some d -> isKey "import" ts = false -> declares (flat ps) [d].
Proof.
  intros ps ts y d G F T N (k & R) D I. exists (ts ++ [tkOp ";"]), [y]. split; [rewrite run_pieces; auto|]. split; [|split].
  - exists k. intros n rest L. cbn [List.length Nat.add]. rewrite <- app_assoc. cbn [app pDecls]. destruct ts as [|t0 ts]; [congruence|]. cbn [app].
    change (t0 :: ts ++ tkOp ";" :: rest) with ((t0 :: ts) ++ tkOp ";" :: rest). rewrite R by (try reflexivity; lia). rewrite expect_hit. reflexivity.
  - cbn. now rewrite D.
  - destruct ts as [|t0 ts]; [congruence|exact I].
Qed.
Lemma type_decl : forall x fs s, goName x = true -> fresh x = true -> fieldsS s fs -> declares (typeDeclS x s) [DType x fs].
Proof.
  intros x fs s G F (ts & ys & R & (k & P) & E).
  apply (declare_one [Fix_ "type "; Hole x [tkId x]; Fix_ " struct {"; Fix_ nl; Lines s ts; Fix_ "}"; Fix_ nl; Fix_ nl] (tkKey "type" :: tkId x :: tkKey "struct" :: tkOp "{" :: ts ++ [tkOp "}"]) (YType x (XStructOf ys))).
  - holes.
  - lexFits.
  - lexToks.
  - discriminate.
  - exists (S (List.length ys + S k))%nat. intros n rest L O. cbn [app]. rewrite <- app_assoc. cbn [app].
    unfold pDecl. cbn [isKey String.eqb Ascii.eqb Bool.eqb tl name1]. destruct n as [|n]; [lia|].
    assert (X : pFields n (ts ++ tkOp "}" :: rest) = Some (ys, rest)).
    { replace n with (List.length ys + (n - List.length ys))%nat by lia. rewrite P by lia. destruct (n - List.length ys)%nat as [|m] eqn:M; [lia|]. cbn. now rewrite app_nil_r. }
    cbn [pType isOp isKey String.eqb Ascii.eqb Bool.eqb tl]. rewrite expect_hit, X. reflexivity.
  - cbn [declOf]. rewrite F, E. reflexivity.
  - reflexivity.
Qed.

(** ** Functions *)
Definition sigToks (camel : string -> string) (xs : list string) : list token := flat_map (fun y => [tkOp ","; tkId y; tkId (camel y)]) xs.
Lemma hole_data : hole "data []byte" [tkId "data"; tkOp "["; tkOp "]"; tkId "byte"].
Proof.
  pose proof (hole_name "byte" eq_refl) as HB.
  apply (hole_pieces [Fix_ "data []"; Hole "byte" [tkId "byte"]]); [holes|]. intros st c rest O C. cbn [fits toks app fixedNext].
  rewrite open_fix by (try exact O; reflexivity). rewrite C. destruct (snd (finish st)); lexFixed; (split; [reflexivity|]);
    destruct (run (sGap true) (String c rest)) as [us u]; unfold pre; cbn [fst snd finish]; repeat (rewrite ?app_nil_r, <- ?app_assoc; cbn [app]); reflexivity.
Qed.
Lemma hole_two : forall a ts b us, hole a ts -> hole b us -> hole (join [a; " "; b]) (ts ++ us).
Proof.
  intros a ts b us H1 H2.
  apply (hole_pieces [Hole a ts; Fix_ " "; Hole b us]); [holes|]. intros st c rest O C. cbn [fits toks app fixedNext].
  rewrite O, C. lexFixed. split; [reflexivity|]. unfold pre. cbn [fst snd finish].
  destruct (run (sGap true) (String c rest)) as [ws u]. cbn [fst snd]. repeat (rewrite ?app_nil_r, <- ?app_assoc; cbn [app]). reflexivity.
Qed.
Section Funcs.
Variable camel : string -> string.
Lemma hole_sig : forall xs s ts, hole s ts -> (forall x, In x xs -> goName x = true /\ goName (camel x) = true) -> hole (s ++ signatureS camel xs)%string (ts ++ sigToks camel xs).
Proof.
  unfold signatureS, sigToks. induction xs as [|x xs IH]; intros s ts H G; cbn [map join flat_map].
  - rewrite append_nil, app_nil_r. exact H.
  - destruct (G x (or_introl eq_refl)) as [G1 G2].
    assert (H1 : hole (join [s; ", "; join [x; " "; camel x]]) (ts ++ [tkOp ","; tkId x; tkId (camel x)])).
    { apply (hole_bin ", " s ts _ [tkId x; tkId (camel x)]); auto. apply (hole_two x [tkId x] (camel x) [tkId (camel x)]); now apply hole_name. }
    specialize (IH _ _ H1 (fun y I => G y (or_intror I))). cbn [join] in IH. rewrite <- app_assoc in IH.
    match goal with |- hole ?a _ => match type of IH with hole ?b _ => replace a with b; [exact IH|] end end.
    rewrite !append_nil, !append_assoc. reflexivity.
Qed.
Lemma sig_reads : forall xs x ts t, readsT ts t -> exists k, forall n rest, (k <= n)%nat ->
  pParams n (tkId x :: ts ++ sigToks camel xs ++ tkOp ")" :: rest) = Some ((x, t) :: map (fun y => (y, XName (camel y))) xs, rest).
Proof.
  induction xs as [|y xs IH]; intros x ts t (k & R); cbn [map sigToks flat_map app].
  - exists (S k). intros n rest L. destruct n as [|n]; [lia|]. cbn [pParams isOp name1]. rewrite R by (try reflexivity; lia). reflexivity.
  - destruct (IH y [tkId (camel y)] (XName (camel y)) (T_name _)) as (k2 & R2). exists (S (k + k2)). intros n rest L. destruct n as [|n]; [lia|].
    cbn [pParams isOp name1]. rewrite R by (try reflexivity; lia). cbn [isOp String.eqb Ascii.eqb Bool.eqb]. rewrite expect_hit.
    specialize (R2 n rest ltac:(lia)). cbn [app] in R2. fold (sigToks camel xs). rewrite R2. reflexivity.
Qed.
Lemma params_mean : forall xs, (forall x, In x xs -> fresh x = true /\ fresh (camel x) = true) ->
  all paramOf (map (fun y => (y, XName (camel y))) xs) = Some (map (fun y => (y, camel y)) xs).
Proof.
  induction xs as [|x xs IH]; intros F; cbn [map all]; [reflexivity|]. destruct (F x (or_introl eq_refl)) as [F1 F2]. unfold paramOf. cbn [fst snd]. rewrite F1, F2. cbn [andb].
  fold paramOf. rewrite IH by (intros; apply F; now right). reflexivity.
Qed.
Lemma map_pairs : forall xs : list string, map fst (map (fun y => (y, camel y)) xs) = xs /\ map snd (map (fun y => (y, camel y)) xs) = map camel xs.
Proof. intros xs. rewrite !map_map. cbn. split; [apply map_id|reflexivity]. Qed.

Lemma copy_line : spells (join ["cur := data"; nl]) [SDecl "cur" (EVar "data")].
Proof.
  apply (spell_line [Fix_ "cur := data"; Fix_ nl] ([tkId "cur"] ++ tkOp ":=" :: [tkId "data"]) (YAssign ":=" [XName "cur"] [XName "data"])).
  - holes.
  - lexFits.
  - lexToks.
  - apply one_assign; prims; reflexivity.
  - reflexivity.
Qed.
Lemma return_line : forall x, goName x = true -> fresh x = true -> spells (join ["return "; x; ", nil"; nl]) [SReturn (EVar x) ENil].
Proof.
  intros x G F. apply (spell_line [Fix_ "return "; Hole x [tkId x]; Fix_ ", nil"; Fix_ nl] (tkKey "return" :: ([tkId x] ++ tkOp "," :: [tkId "nil"])) (YReturn [XName x; XName "nil"])).
  - holes.
  - lexFits.
  - lexToks.
  - apply S_return. apply L_cons; [apply E_prim; [prims|lia]|]. apply L_one. apply E_prim; [prims|lia].
  - cbn [stmtOf]. rewrite exprOf_name by auto. reflexivity.
Qed.
Lemma method_decl : forall rv ty xs ms ss, goName rv = true -> fresh rv = true -> goName ty = true -> fresh ty = true ->
  (forall x, In x xs -> (goName x = true /\ fresh x = true) /\ (goName (camel x) = true /\ fresh (camel x) = true)) -> spells ms ss ->
  declares (join ["func ("; rv; " *"; ty; ") Parse(data []byte"; signatureS camel xs; ") ([]byte, error) {"; nl; "cur := data"; nl; ms; "return cur, nil"; nl; "}"; nl; nl])
    [DMethod ty (map camel xs) (mkFunc rv xs ([SDecl "cur" (EVar "data")] ++ ss ++ [SReturn cur ENil]))].
Proof.
  intros rv ty xs ms ss G1 F1 G2 F2 X SM.
  assert (SB : spells (join ["cur := data"; nl; ms; "return cur, nil"; nl]) ([SDecl "cur" (EVar "data")] ++ ss ++ [SReturn cur ENil])).
  { apply (spells_split ["cur := data"; nl]); [apply copy_line|]. apply spells_cons; auto. apply (return_line "cur"); reflexivity. }
  set (body := join ["cur := data"; nl; ms; "return cur, nil"; nl]) in *.
  set (sig := ("data []byte" ++ signatureS camel xs)%string).
  match goal with |- declares ?a _ => replace a with (join ["func ("; rv; " *"; ty; ") Parse("; sig; ") ([]byte, error) {"; nl; body; "}"; nl; nl]) by
    (unfold sig, body; cbn [join]; rewrite !append_nil, !append_assoc; reflexivity) end.
  clearbody body. destruct SB as (us & ys & R & S1 & M).
  assert (HS : hole sig ([tkId "data"; tkOp "["; tkOp "]"; tkId "byte"] ++ sigToks camel xs)).
  { apply hole_sig; [apply hole_data|]. intros x I. destruct (X x I) as [[? _] [? _]]. auto. }
  clearbody sig.
  destruct (sig_reads xs "data" [tkOp "["; tkOp "]"; tkId "byte"] (XSliceOf (XName "byte")) (T_slice _ _ (T_name _))) as (k1 & R1).
  destruct (blk_stm us ys S1) as (_ & k2 & R2).
  apply (declare_one [Fix_ "func ("; Hole rv [tkId rv]; Fix_ " *"; Hole ty [tkId ty]; Fix_ ") Parse("; Hole sig ([tkId "data"; tkOp "["; tkOp "]"; tkId "byte"] ++ sigToks camel xs); Fix_ ") ([]byte, error) {"; Fix_ nl; Lines body us; Fix_ "}"; Fix_ nl; Fix_ nl]
    (tkKey "func" :: tkOp "(" :: tkId rv :: tkOp "*" :: tkId ty :: tkOp ")" :: tkId "Parse" :: tkOp "(" :: tkId "data" :: [tkOp "["; tkOp "]"; tkId "byte"] ++ sigToks camel xs ++ tkOp ")" :: tkOp "(" :: tkOp "[" :: tkOp "]" :: tkId "byte" :: tkOp "," :: tkId "error" :: tkOp ")" :: (tkOp "{" :: us ++ [tkOp "}"]))
    (YFunc (Some (rv, XUn "*" (XName ty))) "Parse" (("data", XSliceOf (XName "byte")) :: map (fun y => (y, XName (camel y))) xs) [XSliceOf (XName "byte"); XName "error"] ys)).
  - holes.
  - lexFits.
  - lexToks.
  - discriminate.
  - exists (S (S (S (S (k1 + k2)))))%nat. intros n rest L O.
    match goal with |- pDecl _ ?a = _ => replace a with (tkKey "func" :: tkOp "(" :: tkId rv :: tkOp "*" :: tkId ty :: tkOp ")" :: tkId "Parse" :: tkOp "(" :: tkId "data" :: [tkOp "["; tkOp "]"; tkId "byte"] ++ sigToks camel xs ++ tkOp ")" :: tkOp "(" :: tkOp "[" :: tkOp "]" :: tkId "byte" :: tkOp "," :: tkId "error" :: tkOp ")" :: (tkOp "{" :: us ++ [tkOp "}"]) ++ rest)
      by (repeat (cbn [app]; rewrite <- ?app_assoc); reflexivity) end.
    unfold pDecl. cbn [isKey isOp String.eqb Ascii.eqb Bool.eqb tl name1].
    assert (T : forall u us, pType n (tkOp "*" :: tkId ty :: tkOp u :: us) = if String.eqb u "." then pType n (tkOp "*" :: tkId ty :: tkOp u :: us) else Some (XUn "*" (XName ty), tkOp u :: us)).
    { intros u us'. destruct (String.eqb u ".") eqn:E; auto. destruct n as [|[|n]]; try lia. cbn [pType isOp String.eqb Ascii.eqb Bool.eqb tl name1]. rewrite E. reflexivity. }
    rewrite T. cbn [String.eqb Ascii.eqb Bool.eqb]. rewrite expect_hit. cbn [name1]. rewrite expect_hit. rewrite R1 by lia.
    assert (RS : forall us, pResults n (tkOp "(" :: tkOp "[" :: tkOp "]" :: tkId "byte" :: tkOp "," :: tkId "error" :: tkOp ")" :: us) = Some ([XSliceOf (XName "byte"); XName "error"], us)).
    { intros us'. do 4 (destruct n as [|n]; [lia|]). reflexivity. }
    rewrite RS. rewrite R2 by lia. reflexivity.
  - destruct (map_pairs xs) as [M1 M2]. cbn [declOf]. rewrite F1, F2. cbn [String.eqb Ascii.eqb Bool.eqb andb isByteSlice isErrorType].
    rewrite params_mean by (intros x I; destruct (X x I) as [[_ ?] [_ ?]]; auto). rewrite M, M1, M2. reflexivity.
  - reflexivity.
Qed.
Lemma func_decl : forall rv ty xs, goName rv = true -> fresh rv = true -> goName ty = true -> fresh ty = true ->
  (forall x, In x xs -> (goName x = true /\ fresh x = true) /\ (goName (camel x) = true /\ fresh (camel x) = true)) ->
  declares (join ["func "; join ["Parse"; ty]; "(data []byte"; signatureS camel xs; ") (*"; ty; ", error) {"; nl;
        join [rv; " := new("; ty; ")"; nl];
        join ["_, err := "; rv; ".Parse(data"; argsS xs; ")"; nl];
        "if err != nil { return nil, err }"; nl;
        join ["return "; rv; ", nil"; nl]; "}"; nl; nl])
    [DFunc ty (map camel xs) (mkFunc "" xs
        [SDecl rv (ENew ty);
         SParseDecl "err" (LVar rv) (EVar "data") (map EVar xs);
         SIf (ENotNil (EVar "err")) [SReturn ENil (EVar "err")];
         SReturn (EVar rv) ENil])].
Proof.
  intros rv ty xs G1 F1 G2 F2 X.
  set (body := join [join [rv; " := new("; ty; ")"; nl]; join ["_, err := "; rv; ".Parse(data"; argsS xs; ")"; nl]; "if err != nil { return nil, err }"; nl; join ["return "; rv; ", nil"; nl]]).
  assert (SB : spells body [SDecl rv (ENew ty); SParseDecl "err" (LVar rv) (EVar "data") (map EVar xs); SIf (ENotNil (EVar "err")) [SReturn ENil (EVar "err")]; SReturn (EVar rv) ENil]).
  { apply spells_cons1; [|apply spells_cons1; [|apply (spells_split1 ["if err != nil { return nil, err }"; nl]); [apply err_check|apply spells_one; now apply return_line]]].
    - apply (spell_line [Hole rv [tkId rv]; Fix_ " := new("; Hole ty [tkId ty]; Fix_ ")"; Fix_ nl] ([tkId rv] ++ tkOp ":=" :: [tkId "new"; tkOp "("; tkId ty; tkOp ")"]) (YAssign ":=" [XName rv] [XCall (XName "new") [XName ty]])).
      + holes.
      + lexFits.
      + lexToks.
      + apply one_assign; prims; try reflexivity. apply new_prim.
      + apply of_decl; auto. cbn. now rewrite F2.
    - replace (join ["_, err := "; rv; ".Parse(data"; argsS xs; ")"; nl]) with (join ["_, err := "; rv; ".Parse("; ("data" ++ argsS xs)%string; ")"; nl]) by (cbn [join]; rewrite !append_assoc; reflexivity).
      assert (HA : hole ("data" ++ argsS xs)%string (tkId "data" :: argToks xs)).
      { apply (hole_args xs "data" [tkId "data"]); [now apply hole_name|]. intros x J. now apply X. }
      apply (spell_line [Fix_ "_, err := "; Hole rv [tkId rv]; Fix_ ".Parse("; Hole ("data" ++ argsS xs)%string (tkId "data" :: argToks xs); Fix_ ")"; Fix_ nl]
        (([tkId "_"] ++ tkOp "," :: [tkId "err"]) ++ tkOp ":=" :: (([tkId rv] ++ [tkOp "."; tkId "Parse"]) ++ tkOp "(" :: (tkId "data" :: argToks xs) ++ [tkOp ")"]))
        (YAssign ":=" [XName "_"; XName "err"] [XCall (XSel (XName rv) "Parse") (map XName ("data" :: xs))])).
      + repeat (apply Forall_cons; [first [exact Logic.I|exact HA|now apply hole_name]|]). constructor.
      + lexFits.
      + lexToks.
      + apply S_assign; [reflexivity|reflexivity| |].
        * apply L_cons; [apply E_prim; [prims|lia]|]. apply L_one. apply E_prim; [prims|lia].
        * apply L_one. apply E_prim; [|lia]. apply prim_call; [apply prim_sel; prims|]. apply args_reads.
      + cbn [stmtOf String.eqb Ascii.eqb Bool.eqb declareOf map andb]. change (fresh "err") with true. cbn [lvalOf]. rewrite F1. rewrite (exprOf_name "data") by reflexivity.
        rewrite args_mean by (intros x J; now apply X). reflexivity. }
  set (sig := ("data []byte" ++ signatureS camel xs)%string).
  set (fn := ("Parse" ++ ty)%string).
  assert (GF : goName fn = true).
  { unfold fn. destruct ty as [|c ty']; [discriminate|]. cbn [append goName] in *. apply andb_prop in G2 as [G2 _]. apply andb_prop in G2 as [G2 _]. apply andb_prop in G2 as [L I].
    cbn [identTail append]. rewrite L, I. reflexivity. }
  match goal with |- declares ?a _ => replace a with (join ["func "; fn; "("; sig; ") (*"; ty; ", error) {"; nl; body; "}"; nl; nl]) by
    (unfold sig, body, fn; cbn [join]; rewrite !append_nil, !append_assoc; reflexivity) end.
  clearbody body. destruct SB as (us & ys & R & S1 & M).
  assert (HS : hole sig ([tkId "data"; tkOp "["; tkOp "]"; tkId "byte"] ++ sigToks camel xs)).
  { apply hole_sig; [apply hole_data|]. intros x I. destruct (X x I) as [[? _] [? _]]. auto. }
  clearbody sig.
  destruct (sig_reads xs "data" [tkOp "["; tkOp "]"; tkId "byte"] (XSliceOf (XName "byte")) (T_slice _ _ (T_name _))) as (k1 & R1).
  destruct (blk_stm us ys S1) as (_ & k2 & R2).
  apply (declare_one [Fix_ "func "; Hole fn [tkId fn]; Fix_ "("; Hole sig ([tkId "data"; tkOp "["; tkOp "]"; tkId "byte"] ++ sigToks camel xs); Fix_ ") (*"; Hole ty [tkId ty]; Fix_ ", error) {"; Fix_ nl; Lines body us; Fix_ "}"; Fix_ nl; Fix_ nl]
    (tkKey "func" :: tkId fn :: tkOp "(" :: tkId "data" :: [tkOp "["; tkOp "]"; tkId "byte"] ++ sigToks camel xs ++ tkOp ")" :: tkOp "(" :: tkOp "*" :: tkId ty :: tkOp "," :: tkId "error" :: tkOp ")" :: (tkOp "{" :: us ++ [tkOp "}"]))
    (YFunc None fn (("data", XSliceOf (XName "byte")) :: map (fun y => (y, XName (camel y))) xs) [XUn "*" (XName ty); XName "error"] ys)).
  - holes.
  - lexFits.
  - lexToks.
  - discriminate.
  - exists (S (S (S (S (k1 + k2)))))%nat. intros n rest L O.
    match goal with |- pDecl _ ?a = _ => replace a with (tkKey "func" :: tkId fn :: tkOp "(" :: tkId "data" :: [tkOp "["; tkOp "]"; tkId "byte"] ++ sigToks camel xs ++ tkOp ")" :: tkOp "(" :: tkOp "*" :: tkId ty :: tkOp "," :: tkId "error" :: tkOp ")" :: (tkOp "{" :: us ++ [tkOp "}"]) ++ rest)
      by (repeat (cbn [app]; rewrite <- ?app_assoc); reflexivity) end.
    unfold pDecl. cbn [isKey isOp String.eqb Ascii.eqb Bool.eqb tl name1].
    rewrite expect_hit. rewrite R1 by lia.
    assert (RS : forall us, pResults n (tkOp "(" :: tkOp "*" :: tkId ty :: tkOp "," :: tkId "error" :: tkOp ")" :: us) = Some ([XUn "*" (XName ty); XName "error"], us)).
    { intros us'. do 4 (destruct n as [|n]; [lia|]). reflexivity. }
    rewrite RS. rewrite R2 by lia. reflexivity.
  - destruct (map_pairs xs) as [M1 M2]. cbn [declOf]. fold fn. rewrite F2, (String.eqb_refl fn). cbn [String.eqb Ascii.eqb Bool.eqb andb isByteSlice isErrorType].
    rewrite params_mean by (intros x I; destruct (X x I) as [[_ ?] [_ ?]]; auto). rewrite M, M1, M2. reflexivity.
  - reflexivity.
Qed.
End Funcs.
