(** Property C97: the code that is written for a declaration depends on what it mentions.

    [declsOf f]: the contexts and structs of the file [f].  [sameNeeds fs fs' d]: the constants that
    [d] mentions have the same values in [fs] and [fs'], and the structs that [d] mentions have the
    same contexts (LocalSpec.v). *)
From Coq Require Import ZArith String Ascii List Bool.
From Verif Require Import Base Ast InspectModel InspectSpec InspectProofs GoLang GenModel GenPrint GenSimProg WireSpec ContextSpec LocalSpec LocalProofs TextModel TextLex GenExamples GenWitness.
Import ListNotations.
Open Scope string_scope.
Open Scope list_scope.
Open Scope Z_scope.

Definition heading (pkg : string) : string :=
  ("// Code generated by trunnel. DO NOT EDIT." ++ nl ++ nl ++ "package " ++ pkg ++ nl ++ nl)%string.
(** How the text for a declaration begins. *)
Definition begins (camel : string -> string) (d : decl) (t : string) : Prop :=
  match d with
  | DContext c => exists rest, t = ("type " ++ camel (cname c) ++ " struct {" ++ rest)%string
  | DStruct s => if Extern s then t = "" else exists rest, t = ("type " ++ camel (sname s) ++ " struct {" ++ rest)%string
  end.

Lemma decl_begins : forall camel r d t, declS camel r d = Ok t -> begins camel d t.
Proof.
  intros camel r [c|s] t H; cbn [declS begins] in *.
  - unfold contextS in H. destruct (mapM _ (cmembers c)) as [fs| | |]; try discriminate. injection H as <-. eexists. unfold typeDeclS. cbn [join]. reflexivity.
  - unfold structureS in H. destruct (Extern s); [now injection H as <-|]. destruct (receiverName (sname s)) as [recv| | |]; try discriminate. cbn [bind] in H.
    unfold structDeclS in H. destruct (mapM _ (members_of s)) as [fs| | |]; try discriminate. cbn [bind] in H.
    destruct (parseFuncS camel r recv s) as [f| | |]; try discriminate. cbn [bind] in H. injection H as <-.
    eexists. unfold typeDeclS. cbn [join]. rewrite !append_assoc. reflexivity.
Qed.

(** The text is a heading and one piece for each context and struct, in order.  A piece begins with
    the declaration of its type.  A declaration that occurs in two packages gets the same piece in
    both if the constants that it mentions have the same values, and the structs that it mentions
    take the same contexts: nothing else in a package matters. *)
Theorem C97_local : forall camel pkg pkg' os os' fs fs' T T', all_valid os -> all_valid os' ->
  MarshallersText camel pkg os fs = Ok T -> MarshallersText camel pkg' os' fs' = Ok T' ->
  exists ps ps' : list (decl * string),
    T = join (heading pkg :: map snd ps) /\ T' = join (heading pkg' :: map snd ps') /\
    map fst ps = flat_map declsOf fs /\ map fst ps' = flat_map declsOf fs' /\
    (forall d t, In (d, t) ps -> begins camel d t) /\ (forall d t, In (d, t) ps' -> begins camel d t) /\
    forall d t t', In (d, t) ps -> In (d, t') ps' -> sameNeeds fs fs' d -> t = t'.
Proof.
  intros camel pkg pkg' os os' fs fs' T T' V V' H H'. unfold MarshallersText in *.
  destruct (NewResolverFiles os fs) as [r| | |] eqn:R; try discriminate. cbn [bind] in H. destruct (mapM (fileS camel r) fs) as [ts| | |] eqn:M; try discriminate. cbn [bind] in H. assert (ET : T = join [markS; pkgS pkg; join ts]) by congruence. subst T.
  destruct (NewResolverFiles os' fs') as [r'| | |] eqn:R'; try discriminate. cbn [bind] in H'. destruct (mapM (fileS camel r') fs') as [ts'| | |] eqn:M'; try discriminate. cbn [bind] in H'. assert (ET : T' = join [markS; pkgS pkg'; join ts']) by congruence. subst T'.
  apply files_pieces in M as (ps & A1 & A2 & A3). apply files_pieces in M' as (ps' & B1 & B2 & B3). exists ps, ps'.
  assert (TH : forall pkg x, join [markS; pkgS pkg; x] = join (heading pkg :: [x])).
  { intros pk x. unfold heading, markS, pkgS. cbn [join]. now rewrite !append_nil, !append_assoc. }
  rewrite !TH, A2, B2. split; [cbn [join]; now rewrite append_nil|]. split; [cbn [join]; now rewrite append_nil|].
  split; auto. split; auto. split; [intros; eapply decl_begins; eauto|]. split; [intros; eapply decl_begins; eauto|].
  intros d t t' I I' (SK & SS). apply A3 in I. apply B3 in I'. refine (decl_eq camel r r' d _ _ t t' I I').
  - intros k v v' J L L'. destruct (constant_declared _ _ _ _ _ V R L) as (c & C1 & C2 & <-). destruct (constant_declared _ _ _ _ _ V' R' L') as (c' & C1' & C2' & <-).
    symmetry. apply SK; auto; congruence.
  - intros n s s' J L L'. destruct (struct_declared _ _ _ _ _ V R L) as (S1 & S2). destruct (struct_declared _ _ _ _ _ V' R' L') as (S1' & S2').
    symmetry. apply SS; auto; congruence.
Qed.
Print Assumptions C97_local.

Lemma pieces_same : forall (p p' : list (decl * string)), map fst p = map fst p' -> (forall d t t', In (d, t) p -> In (d, t') p' -> t = t') -> map snd p = map snd p'.
Proof.
  induction p as [|[d t] p IH]; intros [|[d' t'] p'] E H; try discriminate; auto. cbn in E. injection E as <- E. cbn [map snd]. f_equal.
  - apply (H d); now left.
  - apply IH; auto. intros d0 x y I J. apply (H d0); now right.
Qed.
Lemma key_once : forall A (key : A -> string) l a b, NoDup (map key l) -> In a l -> In b l -> key b = key a -> b = a.
Proof.
  intros A key l a b N I J E. pose proof (find_name_in key l a N I) as F. pose proof (find_name_in key l b N J) as G. rewrite E in G. congruence.
Qed.
Lemma pieces_split : forall (ps : list (decl * string)) l1 d l2, map fst ps = l1 ++ d :: l2 ->
  exists p1 t p2, ps = p1 ++ (d, t) :: p2 /\ map fst p1 = l1 /\ map fst p2 = l2.
Proof.
  intros ps l1 d l2 E. apply map_eq_app in E as (p1 & q & -> & E1 & E2). destruct q as [|[d' t] p2]; [discriminate|]. cbn in E2. injection E2 as -> E2.
  exists p1, t, p2. auto.
Qed.

(** So replacing one struct by another of the same name and contexts changes the text of that
    struct and of no other. *)
Theorem C97_one_change : forall camel pkg os os' ks cs gs before after s s' T T', all_valid os -> all_valid os' ->
  sname s' = sname s -> scontexts s' = scontexts s ->
  MarshallersText camel pkg os [mkFile ks cs (before ++ s :: after) gs] = Ok T ->
  MarshallersText camel pkg os' [mkFile ks cs (before ++ s' :: after) gs] = Ok T' ->
  exists a t t' b, T = (a ++ t ++ b)%string /\ T' = (a ++ t' ++ b)%string /\ begins camel (DStruct s) t /\ begins camel (DStruct s') t'.
Proof.
  intros camel pkg os os' ks cs gs before after s s' T T' V V' N X H H'.
  destruct (C97_local camel pkg pkg os os' _ _ T T' V V' H H') as (ps & ps' & -> & -> & F & F' & B & B' & L).
  assert (SO : self_ok (mkFile ks cs (before ++ s :: after) gs)).
  { unfold MarshallersText in H. destruct (NewResolverFiles os _) as [r| | |] eqn:R; try discriminate.
    assert (A : exists r, NewResolverFiles os [mkFile ks cs (before ++ s :: after) gs] = Ok r) by eauto. apply resolver_accepts_iff in A as [A _]; auto. now apply Forall_inv in A. }
  destruct SO as (NS & _ & NK). cbn [fstructs fconstants] in NS, NK.
  assert (W : forall d, sameNeeds [mkFile ks cs (before ++ s :: after) gs] [mkFile ks cs (before ++ s' :: after) gs] d).
  { intros d. split; cbn [flat_map fstructs fconstants]; rewrite !app_nil_r.
    - intros c c' I J _ E. now rewrite (key_once _ kname ks c c').
    - intros x y I J _ E. apply in_app_or in J. destruct J as [J|[<-|J]].
      + f_equal. symmetry in E. symmetry. apply (key_once _ sname (before ++ s :: after)); auto. apply in_or_app; now left.
      + assert (x = s) as -> by (apply (key_once _ sname (before ++ s :: after)); auto; [apply in_or_app; right; now left|congruence]). exact X.
      + f_equal. symmetry in E. symmetry. apply (key_once _ sname (before ++ s :: after)); auto. apply in_or_app; right; now right. }
  unfold declsOf in F, F'. cbn [flat_map fcontexts fstructs] in F, F'. rewrite app_nil_r in F, F'. rewrite map_app in F, F'. cbn [map] in F, F'. rewrite app_assoc in F, F'.
  apply pieces_split in F as (p1 & t & p2 & -> & F1 & F2). apply pieces_split in F' as (p1' & t' & p2' & -> & F1' & F2').
  assert (E1 : map snd p1 = map snd p1').
  { apply pieces_same; [congruence|]. intros d x y I J. apply (L d); auto; apply in_or_app; now left. }
  assert (E2 : map snd p2 = map snd p2').
  { apply pieces_same; [congruence|]. intros d x y I J. apply (L d); auto; apply in_or_app; right; now right. }
  exists (heading pkg ++ join (map snd p1))%string, t, t', (join (map snd p2)). split; [|split; [|split]].
  - cbn [join]. rewrite map_app, join_app. cbn [map snd join]. now rewrite append_assoc.
  - cbn [join]. rewrite map_app, join_app. cbn [map snd join]. now rewrite append_assoc, <- E1, <- E2.
  - apply B. apply in_or_app; right; now left.
  - apply B'. apply in_or_app; right; now left.
Qed.
Print Assumptions C97_one_change.

(** Two versions of a file: a struct has grown, a constant that nobody else mentions has changed,
    and the struct that uses both is written as before. *)
Definition inner1 := mkStruct "inner" [] (Some [MField "a" (TInt 8 None)]).
Definition inner2 := mkStruct "inner" [] (Some [MField "a" (TInt 16 (Some [mkRange (IConst "M") None])); MField "b" TNul]).
Definition outer := mkStruct "outer" [] (Some [MField "x" (TFixed (TStruct "inner") (IConst "K")); MEOS]).
Definition v1 := [mkFile [mkConst "K" 3; mkConst "M" 1] [] [inner1; outer] []].
Definition v2 := [mkFile [mkConst "K" 3; mkConst "M" 2] [] [inner2; outer] []].
Example C97_case : sameNeeds v1 v2 (DStruct outer) /\ ~ sameNeeds v1 v2 (DStruct inner2) /\
  exists T T' t a a' b, MarshallersText (fun x => x) "p" (fun _ => id_orders) v1 = Ok T /\ MarshallersText (fun x => x) "p" (fun _ => id_orders) v2 = Ok T' /\
    T = (a ++ t ++ b)%string /\ T' = (a' ++ t ++ b)%string /\ a <> a' /\ begins (fun x => x) (DStruct outer) t.
Proof.
  split; [|split].
  - split; cbn.
    + intros c c' [<-|[<-|[]]] [<-|[<-|[]]] [I|[]] E; try reflexivity; discriminate.
    + intros s s' [<-|[<-|[]]] [<-|[<-|[]]] [I|[]] E; try reflexivity; discriminate.
  - intros [H _]. specialize (H (mkConst "M" 1) (mkConst "M" 2)). cbn in H. assert (2 = 1) by (apply H; auto). discriminate.
  - destruct (MarshallersText (fun x => x) "p" (fun _ => id_orders) v1) as [T| | |] eqn:H; try (vm_compute in H; discriminate).
    destruct (MarshallersText (fun x => x) "p" (fun _ => id_orders) v2) as [T'| | |] eqn:H'; try (vm_compute in H'; discriminate).
    exists T, T'.
    pose proof H as U. pose proof H' as U'. vm_compute in U, U'.
    match type of U with Ok ?x = _ => set (tx := x) in U end. match type of U' with Ok ?x = _ => set (tx' := x) in U' end.
    assert (T = tx) as -> by congruence. assert (T' = tx') as -> by congruence.
    destruct (declS (fun x => x) (mkRes [("inner", inner1); ("outer", outer)] [] [("K", 3); ("M", 1)]) (DStruct outer)) as [t| | |] eqn:D; try (vm_compute in D; discriminate).
    exists t, (String.substring 0 (String.length tx - String.length t) tx), (String.substring 0 (String.length tx' - String.length t) tx'), "".
    pose proof (decl_begins _ _ _ _ D) as B. vm_compute in D. match type of D with Ok ?x = _ => assert (E : t = x) by congruence end.
    split; auto. split; auto. rewrite E in *. split; [vm_compute; reflexivity|]. split; [vm_compute; reflexivity|]. split; [vm_compute; discriminate|exact B].
Qed.

(** What it does mention matters: another value of the constant gives another text for [outer]. *)
Definition v3 := [mkFile [mkConst "K" 4; mkConst "M" 1] [] [inner1; outer] []].
Theorem C97_mentioned_refuted : ~ forall camel pkg pkg' os os' fs fs' T T', all_valid os -> all_valid os' ->
  MarshallersText camel pkg os fs = Ok T -> MarshallersText camel pkg' os' fs' = Ok T' ->
  exists ps ps' : list (decl * string),
    T = join (heading pkg :: map snd ps) /\ T' = join (heading pkg' :: map snd ps') /\
    map fst ps = flat_map declsOf fs /\ map fst ps' = flat_map declsOf fs' /\
    forall d t t', In (d, t) ps -> In (d, t') ps' -> t = t'.
Proof.
  intros A.
  destruct (MarshallersText (fun x => x) "p" (fun _ => id_orders) v1) as [T| | |] eqn:H; try (vm_compute in H; discriminate).
  destruct (MarshallersText (fun x => x) "p" (fun _ => id_orders) v3) as [T'| | |] eqn:H'; try (vm_compute in H'; discriminate).
  destruct (A _ _ _ _ _ _ _ T T' id_orders_valid id_orders_valid H H') as (ps & ps' & E & E' & F & F' & L).
  assert (X : map snd ps = map snd ps') by (apply pieces_same; [rewrite F, F'; reflexivity|exact L]).
  assert (ET : T = T') by congruence. clear - H H' ET. rewrite ET, <- H' in H. vm_compute in H. discriminate.
Qed.
Print Assumptions C97_mentioned_refuted.
