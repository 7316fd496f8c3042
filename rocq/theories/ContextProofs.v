(** The decoder depends on contexts only through the fields that are referred to. *)
From Coq Require Import ZArith String List Bool Lia ZifyBool ZifyNat.
From Verif Require Import Base Ast IntervalsModel InspectModel InspectSpec GoLang GenModel GenDecode GenCheck
  GenSimBody GenSimProg WireSpec GenTerm IndepSpec ContextSpec.
Import ListNotations.
Open Scope string_scope.
Open Scope list_scope.
Open Scope Z_scope.

Section Same.
Variable camel : string -> string.
Variable r : resolver.

Lemma within_ext : forall A k c (b b' : bytes -> outcome (A * bytes)), (forall c, b c = b' c) -> decWithin k c b = decWithin k c b'.
Proof. intros A k c b b' H. unfold decWithin. now rewrite H. Qed.
Lemma leaving_ext : forall A k c (b b' : bytes -> outcome (A * bytes)), (forall c, b c = b' c) -> decLeaving k c b = decLeaving k c b'.
Proof. intros A k c b b' H. unfold decLeaving. now rewrite (within_ext _ _ _ b b' H). Qed.

Section Body.
Variable dcall : string -> amap value -> bytes -> outcome (value * bytes).
Variable n : nat.
Variables cenv cenv' : amap value.
Variable dat : bytes.
Notation sameRef f := (forall fs, refVal camel fs cenv f = refVal camel fs cenv' f).
Notation sameCall nm := (forall c, dcall nm cenv c = dcall nm cenv' c).

Lemma base_same : forall d t c, (forall nm, In nm (structsIn t) -> sameCall nm) -> decBase r dcall cenv d t c = decBase r dcall cenv' d t c.
Proof. intros d t c H. destruct t; cbn [decBase]; auto. apply H. now left. Qed.
Lemma for_same : forall d t, (forall nm, In nm (structsIn t) -> sameCall nm) -> forall m k c, decFor r dcall cenv d m t k c = decFor r dcall cenv' d m t k c.
Proof.
  intros d t H. induction m as [|m IH]; intros k c; cbn [decFor]; destruct (k <=? 0); auto.
  rewrite (base_same d t c H). destruct (decBase r dcall cenv' d t c) as [[v c1]| | |]; auto. cbn [bind]. now rewrite IH.
Qed.
Lemma while_same : forall d t, (forall nm, In nm (structsIn t) -> sameCall nm) -> forall m c, decWhile r dcall cenv d m t c = decWhile r dcall cenv' d m t c.
Proof.
  intros d t H. induction m as [|m IH]; intros c; cbn [decWhile]; destruct (blen c <=? 0); auto.
  rewrite (base_same d t c H). destruct (decBase r dcall cenv' d t c) as [[v c1]| | |]; auto. cbn [bind]. now rewrite IH.
Qed.
Lemma type_same : forall d fs t c, (forall f, In f (lengthsIn t) -> sameRef f) -> (forall nm, In nm (structsIn t) -> sameCall nm) ->
  decType camel r dcall n cenv d fs t c = decType camel r dcall n cenv' d fs t c.
Proof.
  intros d fs t c HF HS. destruct t as [sz cst| | | |nm|b i|b [[f|i]|]]; cbn [decType]; try (apply base_same; exact HS).
  - destruct (integerOf r i) as [k| | |]; auto. cbn [bind]. now rewrite (for_same d b HS).
  - rewrite (HF f) by now left. destruct (refVal camel fs cenv' f) as [x| | |]; auto. cbn [bind]. destruct (tipe camel r b); auto. cbn [bind].
    destruct (_ || _); auto. now rewrite (for_same d b HS).
  - destruct (integerOf r i) as [k| | |]; auto. cbn [bind]. apply leaving_ext. intros c0. now rewrite (while_same d b HS).
  - now rewrite (while_same d b HS).
Qed.

Definition sameM (m : member) : Prop := (forall f, In f (usesOf m) -> sameRef f) -> (forall nm t nm', In (nm, t) (allFields m) -> In nm' (structsIn t) -> sameCall nm') ->
  forall fs c, decMember camel r dcall n cenv (blen dat) m fs c = decMember camel r dcall n cenv' (blen dat) m fs c.
Lemma members_same_of : forall ms, Forall sameM ms -> (forall m f, In m ms -> In f (usesOf m) -> sameRef f) ->
  (forall m nm t nm', In m ms -> In (nm, t) (allFields m) -> In nm' (structsIn t) -> sameCall nm') ->
  forall fs c, decMembers camel r dcall n cenv (blen dat) ms fs c = decMembers camel r dcall n cenv' (blen dat) ms fs c.
Proof.
  induction ms as [|m ms IH]; intros F HF HS fs c; cbn [decMembers]; auto. rewrite (Forall_inv F).
  - destruct (decMember camel r dcall n cenv' (blen dat) m fs c) as [[fs1 c1]| | |]; auto. cbn [bind]. apply IH.
    + eapply Forall_inv_tail; eauto.
    + intros m' f I J. eapply HF; eauto. now right.
    + intros m' nm t nm' I J K. eapply HS; eauto. now right.
  - intros f J. eapply HF; eauto. now left.
  - intros nm t nm' J K. eapply HS; eauto. now left.
Qed.
Lemma member_same : forall m, sameM m.
Proof.
  induction m as [nm t|u tag len cs IH| | |] using member_ind'; intros HF HS fs c; auto.
  - cbn [decMember]. rewrite (type_same (blen dat) fs t c); auto. intros nm' J. eapply HS; [left; reflexivity|exact J].
  - rewrite !decMember_union.
    assert (B : forall c, (x <- refVal camel fs cenv tag ;; decPick camel r dcall n cenv dat cs x cs fs c) = (x <- refVal camel fs cenv' tag ;; decPick camel r dcall n cenv' dat cs x cs fs c)).
    { intros c0. rewrite (HF tag) by now left. destruct (refVal camel fs cenv' tag) as [x| | |]; auto. cbn [bind]. rewrite !decPick_choice.
      destruct (choice r x cs cs) as [ms|] eqn:E; auto. apply choice_in in E as [l I]. apply members_same_of.
      - rewrite Forall_forall in IH. apply (IH _ I).
      - intros m f J K. apply HF. cbn [usesOf]. right. apply in_or_app. right. apply in_flat_map. exists (UCase l ms). split; auto. apply in_flat_map. eauto.
      - intros m nm t nm' J K. apply (HS nm t). cbn [allFields]. apply in_flat_map. exists (UCase l ms). split; auto. apply in_flat_map. eauto. }
    cbv zeta. destruct len as [[f|i]|]; cbn [decConstr].
    + rewrite (HF f) by (cbn [usesOf]; right; now left). destruct (refVal camel fs cenv' f); auto. cbn [bind]. now apply within_ext.
    + destruct (integerOf r i); auto. cbn [bind]. now apply leaving_ext.
    + apply B.
Qed.
Lemma members_same : forall ms, (forall m f, In m ms -> In f (usesOf m) -> sameRef f) ->
  (forall m nm t nm', In m ms -> In (nm, t) (allFields m) -> In nm' (structsIn t) -> sameCall nm') ->
  forall fs c, decMembers camel r dcall n cenv (blen dat) ms fs c = decMembers camel r dcall n cenv' (blen dat) ms fs c.
Proof. intros ms. apply members_same_of. apply Forall_forall. intros m _. apply member_same. Qed.
End Body.

(** Contexts that agree on the fields in [R]. *)
Definition agreeR (R : string -> string -> Prop) (cenv cenv' : amap value) : Prop := forall x,
  match alookup x cenv, alookup x cenv' with
  | None, None => True
  | Some (VStruct _ cf), Some (VStruct _ cf') => forall f, R x f -> alookup (camel f) cf = alookup (camel f) cf'
  | _, _ => False
  end.
Lemma ref_agree : forall (R : string -> string -> Prop) cenv cenv' f, agreeR R cenv cenv' -> (rscope f <> "" -> R (rscope f) (rname f)) -> forall fs, refVal camel fs cenv f = refVal camel fs cenv' f.
Proof.
  intros R cenv cenv' f A H fs. unfold refVal. destruct (String.eqb_spec (rscope f) "") as [|N]; auto.
  specialize (A (rscope f)). destruct (alookup (rscope f) cenv) as [v|], (alookup (rscope f) cenv') as [v'|]; auto.
  - destruct v, v'; try contradiction. cbn [asFields bind]. now rewrite (A _ (H N)).
  - destruct v; contradiction.
  - contradiction.
Qed.
Lemma pass_agree : forall R ns cenv cenv', agreeR R cenv cenv' ->
  (ctxArgs cenv ns = stuck /\ ctxArgs cenv' ns = stuck) \/
  exists vs vs', ctxArgs cenv ns = Ok vs /\ ctxArgs cenv' ns = Ok vs' /\
    forall R' : string -> string -> Prop, (forall x f, In x ns -> R' x f -> R x f) -> agreeR R' (combine ns vs) (combine ns vs').
Proof.
  intros R ns cenv cenv' A. induction ns as [|x ns IH].
  - right. exists [], []. split; auto. split; auto. intros R' _ y. exact I.
  - unfold ctxArgs in *. cbn [mapM]. pose proof (A x) as Ax. destruct (alookup x cenv) as [v|] eqn:E, (alookup x cenv') as [v'|] eqn:E'; cbn [bind]; auto.
    + destruct IH as [[-> ->]|(vs & vs' & -> & -> & H)]; cbn [bind]; auto. right. exists (v :: vs), (v' :: vs'). split; auto. split; auto.
      intros R' HR y. cbn [combine alookup]. destruct (String.eqb_spec y x) as [->|N].
      * destruct v, v'; try contradiction. intros f Rf. apply Ax. apply HR; auto. now left.
      * apply (H R'). intros z f J. apply HR. now right.
    + destruct v; contradiction.
    + contradiction.
Qed.

Lemma call_same : forall m nm s cenv cenv' c, Struct r nm = Some s ->
  agreeR (fun x f => In x (scontexts s) /\ reads (Struct r) s x f) cenv cenv' -> decCall camel r m nm cenv c = decCall camel r m nm cenv' c.
Proof.
  induction m as [|m IH]; intros nm s cenv cenv' c S A; cbn [decCall]; rewrite S; destruct (structDecl camel r s); auto; cbn [bind].
  - destruct (pass_agree _ (scontexts s) cenv cenv' A) as [[-> ->]|(vs & vs' & -> & -> & _)]; auto.
  - destruct (pass_agree _ (scontexts s) cenv cenv' A) as [[-> ->]|(vs & vs' & -> & -> & H)]; auto. cbn [bind].
    assert (H1 : agreeR (reads (Struct r) s) (combine (scontexts s) vs) (combine (scontexts s) vs')) by (apply H; auto).
    rewrite (members_same (decCall camel r m) m (combine (scontexts s) vs) (combine (scontexts s) vs') c); auto.
    + intros mm f I J. apply (ref_agree (reads (Struct r) s)); auto. intros N. now apply Reads_here with (m := mm).
    + intros mm nm1 t nm' I J K c0. destruct (Struct r nm') as [s'|] eqn:S'.
      * apply (IH nm' s'); auto. intros x. specialize (H1 x). destruct (alookup x (combine (scontexts s) vs)) as [v|], (alookup x (combine (scontexts s) vs')) as [v'|]; auto.
        destruct v, v'; auto. intros f [Ix Rf]. apply H1. eapply Reads_nested; eauto.
      * destruct m; cbn [decCall]; now rewrite S'.
Qed.

Lemma struct_same : forall m s fs cenv cenv' c, agreeR (reads (Struct r) s) cenv cenv' ->
  decStruct camel r m s fs cenv c = decStruct camel r m s fs cenv' c.
Proof.
  intros [|m] s fs cenv cenv' c A; cbn [decStruct]; auto. apply members_same.
  - intros mm f I J. apply (ref_agree (reads (Struct r) s)); auto. intros N. now apply Reads_here with (m := mm).
  - intros mm nm t nm' I J K c0. destruct (Struct r nm') as [s'|] eqn:S'.
    + apply (call_same m nm' s'); auto. intros x. specialize (A x). destruct (alookup x cenv) as [v|], (alookup x cenv') as [v'|]; auto.
      destruct v, v'; auto. intros f [Ix Rf]. apply A. eapply Reads_nested; eauto.
    + destruct m; cbn [decCall]; now rewrite S'.
Qed.
End Same.
