(** Replacing the bytes of a field by others, of any length. *)
From Coq Require Import ZArith String List Bool Lia ZifyBool ZifyNat.
From Verif Require Import Base Ast IntervalsModel InspectModel InspectSpec BranchProofs GoLang GenModel GenDecode GenCheck
  GenSimProg WireSpec WireProofs WireComplete GenTerm WireFacts PackageSpec PackageProofs PackageFacts IndepSpec Indep.
Import ListNotations.
Open Scope string_scope.
Open Scope list_scope.
Open Scope Z_scope.

Section Len.
Variable camel : string -> string.
Variable r : resolver.
Variable lenient : Prop.
Notation cv := (Constant r).
Notation sv := (Struct r).
Notation Enc := (enc camel cv sv lenient).
Notation EncN := (encN camel cv sv lenient).
Notation EncAll := (encAll camel cv sv lenient).
Notation EncM := (encM camel cv sv lenient).
Notation EncMs := (encMs camel cv sv lenient).
Notation EncCase := (encCase camel cv sv lenient).

(** Without positions it does not matter where the members stand. *)
Theorem place_free : forall cenv,
  (forall pos fs t v w tail, Enc cenv pos fs t v w tail -> noPtrT t = true -> forall pos', Enc cenv pos' fs t v w tail) /\
  (forall pos fs b vs w tail, EncN cenv pos fs b vs w tail -> noPtrT b = true -> forall pos', EncN cenv pos' fs b vs w tail) /\
  (forall pos fs b vs w, EncAll cenv pos fs b vs w -> noPtrT b = true -> forall pos', EncAll cenv pos' fs b vs w) /\
  (forall pos m fs w tail fs', EncM cenv pos m fs w tail fs' -> noPtrM m = true -> forall pos', EncM cenv pos' m fs w tail fs') /\
  (forall pos cs x fs w tail fs', EncCase cenv pos cs x fs w tail fs' -> (forall c, In c cs -> forallb noPtrM (ucase_members c) = true) ->
     forall pos', EncCase cenv pos' cs x fs w tail fs') /\
  (forall pos ms fs w tail fs', EncMs cenv pos ms fs w tail fs' -> forallb noPtrM ms = true -> forall pos', EncMs cenv pos' ms fs w tail fs').
Proof.
  assert (CS : forall u tag len cs, noPtrM (MUnion u tag len cs) = true -> forall c, In c cs -> forallb noPtrM (ucase_members c) = true).
  { intros u tag len cs N [l ms] I. cbn [noPtrM] in N. rewrite forallb_forall in N. exact (N _ I). }
  apply (enc_mutind camel cv sv lenient
    (fun cenv pos fs t v w tail _ => noPtrT t = true -> forall pos', Enc cenv pos' fs t v w tail)
    (fun cenv pos fs b vs w tail _ => noPtrT b = true -> forall pos', EncN cenv pos' fs b vs w tail)
    (fun cenv pos fs b vs w _ => noPtrT b = true -> forall pos', EncAll cenv pos' fs b vs w)
    (fun cenv pos m fs w tail fs' _ => noPtrM m = true -> forall pos', EncM cenv pos' m fs w tail fs')
    (fun cenv pos cs x fs w tail fs' _ => (forall c, In c cs -> forallb noPtrM (ucase_members c) = true) -> forall pos', EncCase cenv pos' cs x fs w tail fs')
    (fun cenv pos ms fs w tail fs' _ => forallb noPtrM ms = true -> forall pos', EncMs cenv pos' ms fs w tail fs'));
    try (intros; econstructor; solve [eauto]); try (intros; discriminate).
  - intros cenv pos cs x c fs w tail fs' T _ IH O pos'. econstructor; eauto. apply IH. apply O.
    destruct T as [(pre & post & -> & _)|(_ & Ic & _)]; auto. apply in_or_app; right; now left.
  - intros cenv pos m ms fs w1 w2 tail fs1 fs2 _ IH1 _ IH2 F pos'. cbn [forallb] in F. apply andb_true_iff in F as [F1 F2]. econstructor; eauto.
Qed.

(** The members before the field do not look at the end, those after it have no positions. *)
Theorem swap_any : forall cenv n0 ctxs ms1 nm t ms2 pos fs w0 tail fs', NoDup (map camel (flat_map fieldNames (ms1 ++ MField nm t :: ms2))) ->
  unused camel (camel nm) ms2 -> selfDelimiting r (mkStruct n0 ctxs (Some ms1)) -> forallb noPtrM ms2 = true ->
  EncMs cenv pos (ms1 ++ MField nm t :: ms2) fs w0 tail fs' ->
  exists u w v fsA x, w0 = u ++ w ++ v /\ EncMs cenv pos ms1 fs u (w ++ v ++ tail) fsA /\
    Enc cenv (pos + blen u) fsA t x w (v ++ tail) /\ (In (camel nm) (map fst fs) -> alookup (camel nm) fs' = Some x) /\
    forall w' x', Enc cenv (pos + blen u) fsA t x' w' (v ++ tail) ->
      EncMs cenv pos (ms1 ++ MField nm t :: ms2) fs (u ++ w' ++ v) tail (setField (camel nm) x' fs').
Proof.
  intros cenv n0 ctxs ms1 nm t ms2 pos fs w0 tail fs' ND UN SD NP H.
  assert (B : forall n, In n (flat_map fieldNames ms2) -> camel n <> camel nm).
  { intros n J E. rewrite flat_map_app, map_app in ND. apply NoDup_app_r in ND. cbn [flat_map fieldNames app map] in ND.
    inversion ND as [|? ? N _]; subst. apply N. rewrite <- E. now apply in_map. }
  apply encMs_app in H as (u & w1 & fsA & -> & H1 & H2). inversion H2 as [|? ? ? ? w v ? fsB ? HM HS]; subst.
  inversion HM as [? ? ? ? x ? ? HE| | | | |]; subst.
  exists u, w, v, fsA, x. split; [reflexivity|]. split; [now rewrite <- app_assoc in H1|]. split; [exact HE|]. split.
  - intros I. rewrite (encMs_frame camel r lenient _ _ _ _ _ _ _ HS) by auto. apply set_lookup.
    now rewrite (encMs_dom camel r lenient _ _ _ _ _ _ _ H1).
  - intros w' x' E. apply encMs_app. exists u, (w' ++ v), fsA. split; [reflexivity|]. split.
    + apply (tail_free camel r lenient (mkStruct n0 ctxs (Some ms1)) SD cenv) with (tail := (w ++ v) ++ tail); auto.
      apply Forall_forall. intros m I. apply (okM_struct r (mkStruct n0 ctxs (Some ms1)) SD (mkStruct n0 ctxs (Some ms1))); [constructor|exact I].
    + econstructor; [constructor; exact E|]. rewrite <- (set_set _ x' x).
      apply (field_free camel r lenient (camel nm) x' cenv).
      * eapply (proj2 (proj2 (proj2 (proj2 (proj2 (place_free cenv)))))); eauto.
      * apply Forall_forall. intros m Im. split.
        -- intros f J. now apply (UN m).
        -- intros n J. apply B. apply in_flat_map. eauto.
Qed.
End Len.
