(** Encodings do not depend on fields that are not used, and on what follows only
    by its length. *)
From Coq Require Import ZArith String List Bool Lia ZifyBool ZifyNat.
From Verif Require Import Base Ast IntervalsModel InspectModel InspectSpec BranchProofs GoLang GenModel GenDecode GenCheck
  GenSimProg WireSpec WireProofs WireComplete GenTerm WireFacts PackageSpec PackageProofs PackageFacts IndepSpec.
Import ListNotations.
Open Scope string_scope.
Open Scope list_scope.
Open Scope Z_scope.

Lemma set_comm : forall f v g w fs, f <> g -> setField f v (setField g w fs) = setField g w (setField f v fs).
Proof.
  intros f v g w fs N. induction fs as [|[h x] fs IH]; cbn; auto.
  destruct (String.eqb_spec g h) as [->|Ng], (String.eqb_spec f h) as [->|Nf]; cbn.
  - contradiction.
  - destruct (String.eqb_spec f h); [contradiction|]. now rewrite String.eqb_refl.
  - rewrite String.eqb_refl. destruct (String.eqb_spec g h); [contradiction|]. reflexivity.
  - destruct (String.eqb_spec f h), (String.eqb_spec g h); try contradiction. now rewrite IH.
Qed.
Lemma set_set : forall f v w fs, setField f v (setField f w fs) = setField f v fs.
Proof.
  intros f v w fs. induction fs as [|[h x] fs IH]; cbn; auto.
  destruct (String.eqb_spec f h) as [->|Nf]; cbn.
  - now rewrite String.eqb_refl.
  - destruct (String.eqb_spec f h); [contradiction|]. now rewrite IH.
Qed.
Lemma set_other : forall f v g fs, f <> g -> alookup f (setField g v fs) = alookup f fs.
Proof.
  intros f v g fs N. induction fs as [|[h x] fs IH]; cbn; auto.
  destruct (String.eqb_spec g h) as [->|Ng]; cbn.
  - destruct (String.eqb_spec f h); [contradiction|]. reflexivity.
  - destruct (String.eqb_spec f h); auto.
Qed.
Lemma nil_len : forall (t : bytes), blen (@nil Z) = blen t -> t = [].
Proof. intros [|b t] E; auto. unfold blen in E. cbn [length] in E. lia. Qed.

Section Indep.
Variable camel : string -> string.
Variable r : resolver.
Variable lenient : Prop.
Notation cv := (Constant r).
Notation sv := (Struct r).
Notation Enc := (enc camel cv sv lenient).
Notation EncN := (encN camel cv sv lenient).
Notation EncAll := (encAll camel cv sv lenient).
Notation EncM := (encM camel cv sv lenient).
Notation EncMs := (encMs camel cv sv lenient).
Notation EncCase := (encCase camel cv sv lenient).

(** Only the length of what follows matters. *)
Theorem tail_length : forall cenv,
  (forall pos fs t v w tail, Enc cenv pos fs t v w tail -> forall tail', blen tail = blen tail' -> Enc cenv pos fs t v w tail') /\
  (forall pos fs b vs w tail, EncN cenv pos fs b vs w tail -> forall tail', blen tail = blen tail' -> EncN cenv pos fs b vs w tail') /\
  (forall pos fs b vs w, EncAll cenv pos fs b vs w -> True) /\
  (forall pos m fs w tail fs', EncM cenv pos m fs w tail fs' -> forall tail', blen tail = blen tail' -> EncM cenv pos m fs w tail' fs') /\
  (forall pos cs x fs w tail fs', EncCase cenv pos cs x fs w tail fs' -> forall tail', blen tail = blen tail' -> EncCase cenv pos cs x fs w tail' fs') /\
  (forall pos ms fs w tail fs', EncMs cenv pos ms fs w tail fs' -> forall tail', blen tail = blen tail' -> EncMs cenv pos ms fs w tail' fs').
Proof.
  apply (enc_mutind camel cv sv lenient
    (fun cenv pos fs t v w tail _ => forall tail', blen tail = blen tail' -> Enc cenv pos fs t v w tail')
    (fun cenv pos fs b vs w tail _ => forall tail', blen tail = blen tail' -> EncN cenv pos fs b vs w tail')
    (fun cenv pos fs b vs w _ => True)
    (fun cenv pos m fs w tail fs' _ => forall tail', blen tail = blen tail' -> EncM cenv pos m fs w tail' fs')
    (fun cenv pos cs x fs w tail fs' _ => forall tail', blen tail = blen tail' -> EncCase cenv pos cs x fs w tail' fs')
    (fun cenv pos ms fs w tail fs' _ => forall tail', blen tail = blen tail' -> EncMs cenv pos ms fs w tail' fs'));
    try (intros; exact I); try (intros; econstructor; solve [eauto]);
    try (intros; match goal with E : blen [] = blen ?t |- _ => apply nil_len in E; subst t end; econstructor; solve [eauto]).
  - intros cenv pos fs b i k vs w tail E1 E2 H _ tail' E. econstructor; eauto. congruence.
  - intros cenv pos fs b v vs w1 w2 tail _ IH1 _ IH2 tail' E. econstructor; eauto. apply IH1. rewrite !blen_app. lia.
  - intros cenv pos u tag i k cs x fs w tail fs' R E1 E2 H _ tail' E. eapply EncM_union_allbut; eauto. congruence.
  - intros cenv pos m ms fs w1 w2 tail fs1 fs2 _ IH1 _ IH2 tail' E. econstructor; eauto. apply IH1. rewrite !blen_app. lia.
Qed.

(** Fields that are not used do not matter. *)
Section Field.
Variable g : string.
Variable x : value.
Definition freeT (t : type) : Prop := forall f, In f (lengthsIn t) -> rscope f = "" -> camel (rname f) <> g.
Definition freeM (m : member) : Prop := (forall f, In f (usesOf m) -> rscope f = "" -> camel (rname f) <> g) /\
  (forall n, In n (fieldNames m) -> camel n <> g).
Lemma refers_free : forall cenv fs f k, refers camel cenv fs f k -> (rscope f = "" -> camel (rname f) <> g) ->
  refers camel cenv (setField g x fs) f k.
Proof.
  intros cenv fs f k R N. unfold refers in *. destruct (String.eqb_spec (rscope f) "") as [E|E]; auto. rewrite set_other; auto.
Qed.
Lemma free_case : forall u tag len cs c, freeM (MUnion u tag len cs) -> In c cs -> Forall freeM (ucase_members c).
Proof.
  intros u tag len cs [l ms] [A B] Ic. cbn [ucase_members]. apply Forall_forall. intros m Im. split.
  - intros f J. apply A. cbn [usesOf]. right. apply in_or_app. right. apply in_flat_map. exists (UCase l ms). split; auto. apply in_flat_map. eauto.
  - intros n J. apply B. cbn [fieldNames]. apply in_flat_map. exists (UCase l ms). split; auto. apply in_flat_map. eauto.
Qed.
Theorem field_free : forall cenv,
  (forall pos fs t v w tail, Enc cenv pos fs t v w tail -> freeT t -> Enc cenv pos (setField g x fs) t v w tail) /\
  (forall pos fs b vs w tail, EncN cenv pos fs b vs w tail -> freeT b -> EncN cenv pos (setField g x fs) b vs w tail) /\
  (forall pos fs b vs w, EncAll cenv pos fs b vs w -> freeT b -> EncAll cenv pos (setField g x fs) b vs w) /\
  (forall pos m fs w tail fs', EncM cenv pos m fs w tail fs' -> freeM m -> EncM cenv pos m (setField g x fs) w tail (setField g x fs')) /\
  (forall pos cs k fs w tail fs', EncCase cenv pos cs k fs w tail fs' -> (forall c, In c cs -> Forall freeM (ucase_members c)) ->
     EncCase cenv pos cs k (setField g x fs) w tail (setField g x fs')) /\
  (forall pos ms fs w tail fs', EncMs cenv pos ms fs w tail fs' -> Forall freeM ms -> EncMs cenv pos ms (setField g x fs) w tail (setField g x fs')).
Proof.
  apply (enc_mutind camel cv sv lenient
    (fun cenv pos fs t v w tail _ => freeT t -> Enc cenv pos (setField g x fs) t v w tail)
    (fun cenv pos fs b vs w tail _ => freeT b -> EncN cenv pos (setField g x fs) b vs w tail)
    (fun cenv pos fs b vs w _ => freeT b -> EncAll cenv pos (setField g x fs) b vs w)
    (fun cenv pos m fs w tail fs' _ => freeM m -> EncM cenv pos m (setField g x fs) w tail (setField g x fs'))
    (fun cenv pos cs k fs w tail fs' _ => (forall c, In c cs -> Forall freeM (ucase_members c)) ->
       EncCase cenv pos cs k (setField g x fs) w tail (setField g x fs'))
    (fun cenv pos ms fs w tail fs' _ => Forall freeM ms -> EncMs cenv pos ms (setField g x fs) w tail (setField g x fs')));
    try (intros; econstructor; solve [eauto]).
  - intros cenv pos fs b f vs w tail R _ IH F. econstructor; [apply refers_free; auto; apply F; now left|].
    apply IH. intros f' J. apply F. now right.
  - intros cenv pos nm t fs v w tail _ IH [A B]. rewrite set_comm by (intros E; apply (B nm); [now left|auto]). constructor. apply IH. exact A.
  - intros cenv pos u tag cs k fs w tail fs' R _ IH F. econstructor; [apply refers_free; eauto; apply F; now left|].
    apply IH. intros c. eapply free_case; eauto.
  - intros cenv pos u tag f cs k fs w tail fs' R1 R2 _ IH F. econstructor.
    + apply refers_free; eauto. apply F; now left.
    + apply refers_free; eauto. apply F. right. now left.
    + apply IH. intros c. eapply free_case; eauto.
  - intros cenv pos u tag i k0 cs k fs w tail fs' R E1 E2 _ IH F. econstructor; eauto.
    + apply refers_free; eauto. apply F; now left.
    + apply IH. intros c. eapply free_case; eauto.
  - intros cenv pos cs k c fs w tail fs' T _ IH F. econstructor; eauto. apply IH, F.
    destruct T as [(pre & post & -> & _)|(_ & Ic & _)]; auto. apply in_or_app; right; now left.
  - intros cenv pos m ms fs w1 w2 tail fs1 fs2 _ IH1 _ IH2 F. inversion F; subst. econstructor; eauto.
Qed.
End Field.

(** Replacing the bytes of a field that is not used. *)
Theorem swap_field : forall cenv ms1 nm t ms2 pos fs w0 tail fs', NoDup (map camel (flat_map fieldNames (ms1 ++ MField nm t :: ms2))) ->
  unused camel (camel nm) ms2 -> EncMs cenv pos (ms1 ++ MField nm t :: ms2) fs w0 tail fs' ->
  exists u w v fsA x, w0 = u ++ w ++ v /\ EncMs cenv pos ms1 fs u (w ++ v ++ tail) fsA /\
    Enc cenv (pos + blen u) fsA t x w (v ++ tail) /\ (In (camel nm) (map fst fs) -> alookup (camel nm) fs' = Some x) /\
    forall w' x', blen w' = blen w -> Enc cenv (pos + blen u) fsA t x' w' (v ++ tail) ->
      EncMs cenv pos (ms1 ++ MField nm t :: ms2) fs (u ++ w' ++ v) tail (setField (camel nm) x' fs').
Proof.
  intros cenv ms1 nm t ms2 pos fs w0 tail fs' ND UN H.
  assert (B : forall n, In n (flat_map fieldNames ms2) -> camel n <> camel nm).
  { intros n J E. rewrite flat_map_app, map_app in ND. apply NoDup_app_r in ND. cbn [flat_map fieldNames app map] in ND.
    inversion ND as [|? ? N _]; subst. apply N. rewrite <- E. now apply in_map. }
  apply encMs_app in H as (u & w1 & fsA & -> & H1 & H2). inversion H2 as [|? ? ? ? w v ? fsB ? HM HS]; subst.
  inversion HM as [? ? ? ? x ? ? HE| | | | |]; subst.
  exists u, w, v, fsA, x. split; [reflexivity|]. split; [now rewrite <- app_assoc in H1|]. split; [exact HE|]. split.
  - intros I. rewrite (encMs_frame camel r lenient _ _ _ _ _ _ _ HS) by auto. apply set_lookup.
    now rewrite (encMs_dom camel r lenient _ _ _ _ _ _ _ H1).
  - intros w' x' L E. apply encMs_app. exists u, (w' ++ v), fsA. split; [reflexivity|]. split.
    + apply (tail_length cenv) with (tail := (w ++ v) ++ tail); auto. rewrite !blen_app. lia.
    + econstructor; [constructor; exact E|]. rewrite <- (set_set _ x' x). rewrite L.
      apply (field_free (camel nm) x' cenv); auto. apply Forall_forall. intros m Im. split.
      * intros f J. now apply (UN m).
      * intros n J. apply B. apply in_flat_map. eauto.
Qed.
End Indep.
