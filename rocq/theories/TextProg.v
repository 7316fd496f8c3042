(** Proofs that the text of a generated package means the package of GenModel.v. *)
From Coq Require Import ZArith String Ascii List Bool Lia Permutation.
From Verif Require Import Base Ast IntervalsModel InspectModel InspectSpec InspectProofs GoLang GenModel GenCheck GenSim GenSimBody
  PackageSpec PackageProofs GoTypes CompileCheck CompileProg GenPrint GoText TextModel TextLex TextParse TextSim TextDecl TextSame.
From Verif Require GenSimProg GenSafe.
Import ListNotations.
Open Scope string_scope.
Open Scope list_scope.
Open Scope Z_scope.

(** ** Fields of structs *)
Section Fields.
Variable camel : string -> string.
Variable r : resolver.
Variable ctxs : list string.
Hypothesis CTX : forall x, In x ctxs -> goName x = true /\ fresh x = true.
Hypothesis CF : forall x n sz, ctxField r ctxs x n = Some sz -> goName (camel n) = true.
Hypothesis ST : forall n s, Struct r n = Some s -> Extern s = false -> goName (camel n) = true /\ fresh (camel n) = true.

Definition declT (m : member) : Prop := forall k ds, checkMember r ctxs k m = true -> Forall (fun n => goName (camel n) = true) (fieldNames m) ->
  memberDecl camel r m = Ok ds -> exists s, memberDeclS camel r m = Ok s /\ fieldsS s ds.
Lemma member_fields : forall m, declT m.
Proof.
  induction m as [nm t|u tag len cs IH| | |] using member_ind'; intros k ds C F H.
  - cbn [memberDecl memberDeclS checkMember fieldNames] in *. apply bind_ok in H as (g & Hg & H). injection H as <-. inversion F as [|? ? F1 _]; subst.
    destruct (type_type camel r EmptyString ctxs CTX CF ST k t g C Hg) as (s & E & T). unfold fieldS. rewrite E. cbn [bind]. eexists. split; [reflexivity|]. now apply field_line.
  - cbn [memberDecl memberDeclS checkMember fieldNames] in *. apply andb_true_iff in C as [_ C]. clear tag len u. revert ds H.
    induction cs as [|[l ms] cs IHcs]; intros ds H.
    + injection H as <-. eexists. split; [reflexivity|apply fields_nil].
    + apply bind_ok in H as (d1 & H1 & H). apply bind_ok in H as (d2 & H2 & H). injection H as <-. cbn [flat_map forallb] in F, C. apply Forall_app in F as [F1 F2].
      apply andb_true_iff in C as [C1 C2]. destruct (IHcs (Forall_inv_tail IH) C2 F2 _ H2) as (s2 & E2 & T2).
      match goal with |- context [bind ?m _] => assert (X : exists t, m = Ok t /\ fieldsS t d1) end.
      { pose proof (Forall_inv IH) as FI. cbn [ucase_members] in FI. apply andb_true_iff in C1 as [_ C1]. clear - FI H1 F1 C1. revert k d1 H1 C1.
        induction ms as [|m ms IHms]; intros k d1 H C.
        - injection H as <-. eexists. split; [reflexivity|apply fields_nil].
        - cbn [flat_map] in F1. apply Forall_app in F1 as [FA FB]. apply andb_true_iff in C as [C1 C2].
          destruct m as [nm t|u tag len cs| | |].
          4, 5: exact (IHms FB (Forall_inv_tail FI) _ _ H C2).
          all: apply bind_ok in H as (a & Ha & H); apply bind_ok in H as (b & Hb & H); injection H as <-;
            destruct (IHms FB (Forall_inv_tail FI) _ _ Hb C2) as (sb & -> & Tb); destruct (Forall_inv FI _ _ C1 FA Ha) as (sa & -> & Ta); cbn [bind];
            (eexists; split; [reflexivity|]); cbn [join]; rewrite append_nil; now apply fields_cat. }
      destruct X as (t & -> & T). cbn [bind]. rewrite E2. cbn [bind]. eexists. split; [reflexivity|]. cbn [join]. rewrite append_nil. now apply fields_cat.
  - injection H as <-. eexists. split; [reflexivity|apply fields_nil].
  - discriminate.
  - discriminate.
Qed.
Lemma members_fields : forall ms k ds, checkMembers r ctxs k ms = true -> Forall (fun n => goName (camel n) = true) (flat_map fieldNames ms) ->
  mapM (memberDecl camel r) ms = Ok ds -> exists l, mapM (memberDeclS camel r) ms = Ok l /\ fieldsS (join l) (concat ds).
Proof.
  induction ms as [|m ms IH]; intros k ds C F H; cbn [mapM checkMembers flat_map] in *.
  - injection H as <-. exists []. split; [reflexivity|apply fields_nil].
  - apply bind_ok in H as (d & Hd & H). apply bind_ok in H as (tl & Ht & H). injection H as <-. apply andb_prop in C as [C1 C2]. apply Forall_app in F as [F1 F2].
    destruct (member_fields m k d C1 F1 Hd) as (s & -> & T). destruct (IH _ _ C2 F2 Ht) as (l & -> & L). cbn [bind]. eexists. split; [reflexivity|].
    cbn [join concat]. now apply fields_cat.
Qed.
Lemma context_fields : forall fl ds, forallb (fun f => match snd f with TInt sz cst => checkInt r sz cst | _ => false end) fl = true ->
  (forall f, In f fl -> goName (camel (fst f)) = true) ->
  mapM (fun f => g <- tipe camel r (snd f) ;; Ok (camel (fst f), g)) fl = Ok ds ->
  exists l, mapM (fun f => fieldS camel r (fst f) (snd f)) fl = Ok l /\ fieldsS (join l) ds.
Proof.
  induction fl as [|[n t] fl IH]; intros ds C F H; cbn [mapM forallb] in *.
  - injection H as <-. exists []. split; [reflexivity|apply fields_nil].
  - apply bind_ok in H as (d & Hd & H). apply bind_ok in H as (tl & Ht & H). injection H as <-. apply andb_prop in C as [C1 C2].
    apply bind_ok in Hd as (g & Hg & Hd). injection Hd as <-. cbn [fst snd] in *.
    assert (C3 : checkType r ctxs [] t = true) by (destruct t; try discriminate; exact C1).
    destruct (type_type camel r EmptyString ctxs CTX CF ST [] t g C3 Hg) as (s & E & T). destruct (IH _ C2 (fun f I => F f (or_intror I)) Ht) as (l & -> & L).
    unfold fieldS. rewrite E. cbn [bind]. eexists. split; [reflexivity|]. cbn [join].
    apply (fields_cat _ [(camel n, g)]); auto. apply field_line; auto. exact (F (n, t) (or_introl eq_refl)).
Qed.
End Fields.

(** ** Whole packages *)
Section Package.
Variable camel : string -> string.
Variable os : nat -> orders.
Variable fs : list file.
Variable r : resolver.
Variable p : program.
Hypothesis PK : package camel os fs r p.
Hypothesis NM : namesFiles camel fs = true.

Lemma declared_name : forall x, In x (typeNames camel fs) -> goName x = true /\ fresh x = true.
Proof.
  intros x I. destruct (cf_parts camel fs NM) as (_ & G & U & _). assert (J : In x (declaredNames camel fs)) by (unfold declaredNames; apply in_or_app; auto).
  rewrite forallb_forall in G. specialize (G x J). split; auto. apply fresh_name; auto.
Qed.
Lemma struct_name : forall s, In s (definedStructs fs) -> goName (camel (sname s)) = true /\ fresh (camel (sname s)) = true.
Proof. intros s I. apply declared_name. unfold typeNames, structTypes. apply in_or_app. first [right; apply in_map_iff; now exists s|left; apply in_map_iff; now exists s]. Qed.
Lemma context_name : forall c, In c (flat_map fcontexts fs) -> goName (camel (cname c)) = true /\ fresh (camel (cname c)) = true.
Proof. intros c I. apply declared_name. unfold typeNames, structTypes. apply in_or_app. first [left; apply in_map_iff; now exists c|right; apply in_map_iff; now exists c]. Qed.
Lemma names_st : forall n s, Struct r n = Some s -> Extern s = false -> goName (camel n) = true /\ fresh (camel n) = true.
Proof. intros n s H E. destruct (pk_res _ _ _ _ _ PK n s H E) as (<- & I). now apply struct_name. Qed.
Lemma names_cf : forall ctxs x n sz, ctxField r ctxs x n = Some sz -> goName (camel n) = true.
Proof.
  intros ctxs x n sz H. unfold ctxField in H. destruct (memb x ctxs); [|discriminate]. destruct (Context r x) as [c|] eqn:E; [|discriminate].
  destruct (findIntField n (cmembers c)) as [[sz' cst]| | |] eqn:F; try discriminate. destruct (context_in _ _ _ _ _ PK _ _ E) as [I _].
  apply GenSafe.findIntField_in in F. destruct (cf_parts camel fs NM) as (_ & _ & _ & _ & CC & _). exact (CC c _ I F).
Qed.

(** What the declarations of a struct and of a context are. *)
Definition structDecls (s : struct) (x : string * list (string * gtype) * func * func) : list decl :=
  let '(n, d, f, c) := x in [DType n d; DMethod n (map camel (scontexts s)) f; DFunc n (map camel (scontexts s)) c].

Lemma context_declares : forall c x, In c (flat_map fcontexts fs) -> contextDecl camel r c = Ok x ->
  exists s, contextS camel r c = Ok s /\ declares s [DType (fst x) (snd x)].
Proof.
  intros c x I H. unfold contextDecl, contextS in *. apply bind_ok in H as (fl & Hf & H). injection H as <-. cbn [fst snd].
  pose proof (check_context _ _ _ _ _ PK c I) as CC. unfold checkContext in CC. apply andb_true_iff in CC as [CC _]. apply andb_true_iff in CC as [CC _].
  destruct (cf_parts camel fs NM) as (_ & _ & _ & _ & CN & _).
  destruct (context_fields camel r [] (fun x (J : In x []) => match J with end) (names_cf []) names_st (cmembers c) fl CC (fun f J => CN c f I J) Hf) as (l & -> & L). cbn [bind]. eexists. split; [reflexivity|].
  destruct (context_name c I). now apply type_decl.
Qed.
Lemma struct_declares : forall s x, In s (definedStructs fs) -> structureDecl camel r s = Ok x ->
  exists t, structureS camel r s = Ok t /\ declares t (structDecls s x).
Proof.
  intros s x I H. destruct (struct_facts _ _ _ _ _ PK NM s I) as (rv & F). destruct (struct_name s I) as [N1 N2].
  assert (EX : Extern s = false). { unfold definedStructs in I. apply filter_In in I as [_ I]. now apply negb_true_iff in I. }
  unfold structureDecl in H. apply bind_ok in H as (d & Hd & H). apply bind_ok in H as (f & Hf & H). apply bind_ok in H as (c & Hc & H). injection H as <-.
  unfold parseFunc, ctorFunc in Hf, Hc. rewrite (fa_recv _ _ _ _ _ F) in Hf, Hc. cbn [bind] in Hf, Hc. injection Hc as <-. apply bind_ok in Hf as (ms & Hm & Hf). injection Hf as <-.
  unfold structureS. rewrite EX, (fa_recv _ _ _ _ _ F). cbn [bind].
  assert (FN : Forall (fun n => goName (camel n) = true) (flat_map fieldNames (members_of s))).
  { pose proof (fa_fields _ _ _ _ _ F) as G. rewrite forallb_forall in G. apply Forall_forall. intros y J. apply G. apply in_map_iff. eauto. }
  unfold structDecl in Hd. apply bind_ok in Hd as (dd & Hd & E). injection E as <-.
  assert (CX : forall y, In y (scontexts s) -> goName y = true /\ fresh y = true).
  { intros y J. pose proof (fa_ctxname _ _ _ _ _ F y J) as G. split; auto. apply fresh_name; auto. exact (fa_ctxused _ _ _ _ _ F y J). }
  destruct (members_fields camel r (scontexts s) CX (names_cf (scontexts s)) names_st (members_of s) [] dd (fa_check _ _ _ _ _ F) FN Hd) as (l & L1 & L2).
  unfold structDeclS. rewrite L1. cbn [bind].
  assert (RV : goName rv = true /\ fresh rv = true).
  { pose proof (fa_goName _ _ _ _ _ F) as G. split; auto. apply fresh_name; auto. exact (receiver_used _ _ (fa_recv _ _ _ _ _ F)). }
  assert (CN : forall y, In y (scontexts s) -> (goName y = true /\ fresh y = true) /\ (goName (camel y) = true /\ fresh (camel y) = true)).
  { intros y J. split; auto. destruct (fa_ctxdef _ _ _ _ _ F y J) as (c & E). destruct (context_in _ _ _ _ _ PK _ _ E) as [K <-]. now apply context_name. }
  destruct (members_text camel r rv (scontexts s) (members_of s) [] ms) as (t & T1 & _ & T3); auto.
  { intros m _. apply member_text; auto; [apply names_cf|apply names_st]. }
  { intros n sz []. }
  { apply F. }
  unfold parseFuncS. rewrite T1. cbn [bind]. eexists. split; [reflexivity|].
  match goal with |- declares (join [?a; ?b; ?c]) _ => change (join [a; b; c]) with (a ++ b ++ c ++ "")%string end. rewrite (append_nil (ctorFuncS camel rv s)). unfold structDecls.
  destruct RV as [R1 R2].
  apply (declares_cat _ [DType _ _]); [now apply type_decl|]. apply (declares_cat _ [DMethod _ _ _]); [now apply method_decl|]. now apply func_decl.
Qed.
Lemma contexts_declare : forall cs xs, (forall c, In c cs -> In c (flat_map fcontexts fs)) -> mapM (contextDecl camel r) cs = Ok xs ->
  exists l, mapM (contextS camel r) cs = Ok l /\ declares (join l) (map (fun x => DType (fst x) (snd x)) xs).
Proof.
  induction cs as [|c cs IH]; intros xs I H; cbn [mapM] in *.
  - injection H as <-. exists []. split; [reflexivity|apply declares_nil].
  - apply bind_ok in H as (x & Hx & H). apply bind_ok in H as (tl & Ht & H). injection H as <-.
    destruct (context_declares c x (I c (or_introl eq_refl)) Hx) as (s & -> & D). destruct (IH tl (fun c J => I c (or_intror J)) Ht) as (l & -> & L).
    cbn [bind]. eexists. split; [reflexivity|]. cbn [join map]. now apply (declares_cat _ [DType _ _]).
Qed.
Definition live (ss : list struct) : list struct := filter (fun s => negb (Extern s)) ss.
Lemma structs_declare : forall ss xs, (forall s, In s (live ss) -> In s (definedStructs fs)) -> mapM (structureDecl camel r) (live ss) = Ok xs ->
  exists l, mapM (structureS camel r) ss = Ok l /\ declares (join l) (flat_map (fun y => structDecls (fst y) (snd y)) (combine (live ss) xs)).
Proof.
  induction ss as [|s ss IH]; intros xs I H; cbn [live filter mapM] in *.
  - injection H as <-. exists []. split; [reflexivity|apply declares_nil].
  - fold (live ss) in *. destruct (Extern s) eqn:E; cbn [negb] in *.
    + destruct (IH xs I H) as (l & L1 & L2). unfold structureS at 1. rewrite E. cbn [bind]. rewrite L1. cbn [bind]. eexists. split; [reflexivity|]. exact L2.
    + cbn [mapM] in H. apply bind_ok in H as (x & Hx & H). apply bind_ok in H as (tl & Ht & H). injection H as <-.
      destruct (struct_declares s x (I s (or_introl eq_refl)) Hx) as (t & -> & D). destruct (IH tl (fun c J => I c (or_intror J)) Ht) as (l & -> & L).
      cbn [bind]. eexists. split; [reflexivity|]. cbn [join combine flat_map fst snd]. now apply declares_cat.
Qed.
Lemma mapM_app_inv : forall A B (f : A -> outcome B) a b l, mapM f (a ++ b) = Ok l -> exists l1 l2, mapM f a = Ok l1 /\ mapM f b = Ok l2 /\ l = l1 ++ l2.
Proof.
  induction a as [|x a IH]; intros b l H; cbn [app mapM] in *; [exists [], l; auto|].
  apply bind_ok in H as (y & Hy & H). apply bind_ok in H as (tl & Ht & H). injection H as <-. destruct (IH _ _ Ht) as (l1 & l2 & -> & -> & ->).
  exists (y :: l1), l2. rewrite Hy. auto.
Qed.
(** Parameters have the types that their names stand for. *)
Definition paramTypes (d : decl) : Prop :=
  match d with DType _ _ => True | DMethod _ ts f | DFunc _ ts f => ts = map camel (fparams f) end.
Definition typ3 (x : string * list (string * gtype) * func * func) := let '(n, d, _, _) := x in (n, d).
Definition met3 (x : string * list (string * gtype) * func * func) := let '(n, _, f, _) := x in (n, f).
Definition fun3 (x : string * list (string * gtype) * func * func) := let '(n, _, _, c) := x in (n, c).
Lemma typesOf_app : forall a b, typesOf (a ++ b) = typesOf a ++ typesOf b.
Proof. intros. apply flat_map_app. Qed.
Lemma methodsOf_app : forall a b, methodsOf (a ++ b) = methodsOf a ++ methodsOf b.
Proof. intros. apply flat_map_app. Qed.
Lemma funcsOf_app : forall a b, funcsOf (a ++ b) = funcsOf a ++ funcsOf b.
Proof. intros. apply flat_map_app. Qed.
Lemma structs_program : forall ss xs, mapM (structureDecl camel r) ss = Ok xs ->
  let ds := flat_map (fun y => structDecls (fst y) (snd y)) (combine ss xs) in
  typesOf ds = map typ3 xs /\ methodsOf ds = map met3 xs /\ funcsOf ds = map fun3 xs /\ Forall paramTypes ds.
Proof.
  induction ss as [|s ss IH]; intros xs H; cbn [mapM] in H.
  - injection H as <-. cbn. auto.
  - apply bind_ok in H as (x & Hx & H). apply bind_ok in H as (tl & Ht & H). injection H as <-. specialize (IH _ Ht). cbn zeta in *. cbn [combine flat_map fst snd].
    destruct IH as (I1 & I2 & I3 & I4). rewrite typesOf_app, methodsOf_app, funcsOf_app, I1, I2, I3. destruct x as [[[n d] f] c].
    split; [reflexivity|]. split; [reflexivity|]. split; [reflexivity|]. apply Forall_app. split; auto.
    unfold structureDecl in Hx. apply bind_ok in Hx as (d' & _ & Hx). apply bind_ok in Hx as (f' & Hf & Hx). apply bind_ok in Hx as (c' & Hc & Hx). injection Hx as <- <- <- <-.
    unfold parseFunc, ctorFunc in Hf, Hc. apply bind_ok in Hf as (rv & Hr & Hf). rewrite Hr in Hc. cbn [bind] in Hc. injection Hc as <-. apply bind_ok in Hf as (ms & _ & Hf). injection Hf as <-.
    unfold structDecls. repeat constructor.
Qed.
Lemma contexts_program : forall (xs : list (string * list (string * gtype))), let ds := map (fun x => DType (fst x) (snd x)) xs in
  typesOf ds = xs /\ methodsOf ds = [] /\ funcsOf ds = [] /\ Forall paramTypes ds.
Proof.
  induction xs as [|[n d] xs (I1 & I2 & I3 & I4)]; cbn zeta in *; [cbn; auto|]. cbn [map fst snd]. unfold typesOf, methodsOf, funcsOf in *. cbn [flat_map app]. rewrite I1, I2, I3.
  repeat split; auto. constructor; auto. exact Logic.I.
Qed.
Lemma files_declare : forall gs cs ss, (forall f, In f gs -> In f fs) -> mapM (contextDecl camel r) (flat_map fcontexts gs) = Ok cs ->
  mapM (structureDecl camel r) (live (flat_map fstructs gs)) = Ok ss ->
  exists l ds, mapM (fileS camel r) gs = Ok l /\ declares (join l) ds /\
    Permutation (typesOf ds) (cs ++ map typ3 ss) /\ methodsOf ds = map met3 ss /\ funcsOf ds = map fun3 ss /\ Forall paramTypes ds.
Proof.
  induction gs as [|f gs IH]; intros cs ss I HC HS; cbn [flat_map mapM] in *.
  - injection HC as <-. injection HS as <-. exists [], []. split; [reflexivity|]. split; [apply declares_nil|]. cbn. auto.
  - apply mapM_app_inv in HC as (c1 & c2 & HC1 & HC2 & ->). unfold live in HS. rewrite filter_app in HS. apply mapM_app_inv in HS as (s1 & s2 & HS1 & HS2 & ->). fold (live (fstructs f)) in HS1. fold (live (flat_map fstructs gs)) in HS2.
    destruct (IH c2 s2 (fun f J => I f (or_intror J)) HC2 HS2) as (l & ds & -> & D & P & M & F & T).
    destruct (contexts_declare (fcontexts f) c1) as (lc & Lc & Dc); auto.
    { intros c J. apply in_flat_map. exists f. split; auto. apply I. now left. }
    destruct (structs_declare (fstructs f) s1) as (ls & Ls & Ds); auto.
    { intros s J. unfold live in J. apply filter_In in J as [J1 J2]. unfold definedStructs. apply filter_In. split; auto. apply in_flat_map. exists f. split; auto. apply I. now left. }
    unfold fileS. rewrite Lc, Ls. cbn [bind]. eexists _, _. split; [reflexivity|]. split.
    { cbn [join]. rewrite append_nil. apply declares_cat; [apply declares_cat; eassumption|exact D]. }
    destruct (contexts_program c1) as (A1 & A2 & A3 & A4). destruct (structs_program _ _ HS1) as (B1 & B2 & B3 & B4). cbn zeta in *.
    rewrite !typesOf_app, !methodsOf_app, !funcsOf_app, A1, A2, A3, B1, B2, B3, M, F, !map_app. cbn [app].
    split; [|split; [reflexivity|split; [reflexivity|]]].
    + rewrite <- !app_assoc. apply Permutation_app_head. rewrite P. rewrite !app_assoc. apply Permutation_app_tail. apply Permutation_app_comm.
    + repeat (apply Forall_app; split); auto.
Qed.

(** ** The whole text *)
Lemma header_text : forall pkg, goName pkg = true -> run (sGap false) (join [markS; pkgS pkg]) = ([tkKey "package"; tkId pkg; tkOp ";"], sGap false).
Proof.
  intros pkg G. change (join [markS; pkgS pkg]) with (markS ++ pkgS pkg ++ "")%string. rewrite (append_nil (pkgS pkg)), run_app.
  replace (run (sGap false) markS) with (@nil token, sGap false) by (vm_compute; reflexivity). cbn [fst snd].
  change (pkgS pkg) with (flat [Fix_ "package "; Hole pkg [tkId pkg]; Fix_ nl; Fix_ nl]).
  rewrite run_pieces; [lexToks|holes|lexFits].
Qed.
Lemma read_text : forall pkg s ds, goName pkg = true -> declares s ds -> exists k, forall n, (k <= n)%nat -> readGo n (join [markS; pkgS pkg; s]) = Some (pkg, ds).
Proof.
  intros pkg s ds G (ts & ys & R & (k & D) & A & I). exists (S (S (List.length ys + k))). intros n L. unfold readGo, tokens.
  replace (join [markS; pkgS pkg; s]) with (join [markS; pkgS pkg] ++ s)%string by (cbn [join]; rewrite !append_nil, !append_assoc; reflexivity).
  rewrite run_app, header_text by auto. cbn [fst snd]. rewrite R. unfold pre. cbn [fst snd finish app]. rewrite !app_nil_r. unfold pFile. cbn [app isKey String.eqb Ascii.eqb Bool.eqb tl name1]. rewrite expect_hit.
  destruct n as [|n]; [lia|]. assert (PI : pImports (S n) ts = Some ts) by (cbn [pImports]; now rewrite I). rewrite PI.
  replace (S n) with (List.length ys + (S n - List.length ys))%nat by lia. rewrite <- (app_nil_r ts). rewrite D by lia.
  destruct (S n - List.length ys)%nat as [|m] eqn:M; [lia|]. cbn [pDecls]. rewrite app_nil_r, A. reflexivity.
Qed.
Lemma alookup_perm : forall A (a b : amap A) x, Permutation a b -> NoDup (map fst b) -> alookup x a = alookup x b.
Proof.
  intros A a b x P N. assert (N' : NoDup (map fst a)). { eapply Permutation_NoDup; [|exact N]. apply Permutation_map. now apply Permutation_sym. }
  destruct (alookup x a) as [v|] eqn:E.
  - symmetry. apply GenSimProg.alookup_some_in in E. apply GenSimProg.alookup_in; auto. now apply (Permutation_in _ P).
  - destruct (alookup x b) as [v|] eqn:E2; auto. apply GenSimProg.alookup_some_in in E2. rewrite <- E. apply GenSimProg.alookup_in; auto. apply (Permutation_in _ (Permutation_sym P)). auto.
Qed.
Theorem text_program : forall pkg, goName pkg = true -> exists text ds k, MarshallersText camel pkg os fs = Ok text /\
  (forall n, (k <= n)%nat -> readGo n text = Some (pkg, ds)) /\
  Permutation (typesOf ds) (ptypes p) /\ methodsOf ds = pmethods p /\ funcsOf ds = pctors p /\ Forall paramTypes ds /\ sameProgram (programOf ds) p.
Proof.
  intros pkg G. pose proof (pk_gen _ _ _ _ _ PK) as GP. pose proof (nodup_types _ _ _ _ _ PK NM) as ND.
  unfold genProgram in GP. apply bind_ok in GP as (cs & Hc & H). apply bind_ok in H as (ss & Hs & H). injection H as E.
  destruct (files_declare fs cs ss (fun f J => J) Hc Hs) as (l & ds & L & D & P & M & F & T).
  destruct (read_text pkg (join l) ds G D) as (k & K). exists (join [markS; pkgS pkg; join l]), ds, k.
  split; [unfold MarshallersText; rewrite (pk_resolved _ _ _ _ _ PK); cbn [bind]; rewrite L; reflexivity|].
  assert (E1 : ptypes p = cs ++ map typ3 ss) by (rewrite <- E; reflexivity). assert (E2 : pmethods p = map met3 ss) by (rewrite <- E; reflexivity).
  assert (E3 : pctors p = map fun3 ss) by (rewrite <- E; reflexivity). rewrite E1, E2, E3. rewrite E1 in ND.
  split; [exact K|]. split; [exact P|]. split; [exact M|]. split; [exact F|]. split; [exact T|].
  split; [|split]; intros x; cbn [programOf ptypes pmethods pctors]; rewrite ?E1, ?E2, ?E3, ?M, ?F; auto. now apply alookup_perm.
Qed.
End Package.
