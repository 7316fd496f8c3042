(** Consequences of the format specification. *)
From Coq Require Import ZArith String List Bool Lia ZifyBool ZifyNat.
From Verif Require Import Base Ast IntervalsModel InspectModel InspectSpec BranchProofs GoLang GenModel GenDecode GenCheck
  GenSim GenSimBody GenSimProg WireSpec WireProofs WireComplete GenTerm.
Import ListNotations.
Open Scope string_scope.
Open Scope list_scope.
Open Scope Z_scope.
Ltac Zify.zify_post_hook ::= Z.div_mod_to_equations.

Section Facts.
Variable camel : string -> string.
Variable r : resolver.
Variable lenient : Prop.
Notation cv := (Constant r).
Notation sv := (Struct r).
Notation Enc := (enc camel cv sv lenient).
Notation EncN := (encN camel cv sv lenient).
Notation EncAll := (encAll camel cv sv lenient).
Notation EncM := (encM camel cv sv lenient).
Notation EncMs := (encMs camel cv sv lenient).
Notation EncCase := (encCase camel cv sv lenient).

Lemma encMs_app : forall cenv ms1 ms2 pos fs w tail fs2, EncMs cenv pos (ms1 ++ ms2) fs w tail fs2 <->
  exists w1 w2 fs1, w = w1 ++ w2 /\ EncMs cenv pos ms1 fs w1 (w2 ++ tail) fs1 /\
    EncMs cenv (pos + blen w1) ms2 fs1 w2 tail fs2.
Proof.
  intros cenv. induction ms1 as [|m ms1 IH]; intros ms2 pos fs w tail fs2; cbn [app]; split.
  - intros H. exists [], w, fs. cbn [app]. split; auto. split; [constructor|]. change (blen (@nil Z)) with 0. now rewrite Z.add_0_r.
  - intros (w1 & w2 & fs1 & -> & H1 & H2). inversion H1; subst. change (blen (@nil Z)) with 0 in H2. now rewrite Z.add_0_r in H2.
  - intros H. inversion H as [|? ? ? ? wa wb ? fsa ? HM HS]; subst.
    apply IH in HS as (w1 & w2 & fs1 & -> & H1 & H2). exists (wa ++ w1), w2, fs1. split; [now rewrite app_assoc|].
    split.
    + econstructor; eauto. now rewrite <- app_assoc in HM.
    + rewrite blen_app. now rewrite Z.add_assoc.
  - intros (w1 & w2 & fs1 & -> & H1 & H2). inversion H1 as [|? ? ? ? wa wb ? fsa ? HM HS]; subst.
    rewrite <- app_assoc. econstructor.
    + rewrite <- app_assoc. exact HM.
    + apply IH. exists wb, w2, fs1. split; auto. split; auto. rewrite blen_app in H2. now rewrite <- Z.add_assoc.
Qed.
Lemma encMs_one : forall cenv m pos fs w tail fs', EncMs cenv pos [m] fs w tail fs' <-> EncM cenv pos m fs w tail fs'.
Proof.
  intros. split.
  - intros H. inversion H as [|? ? ? ? wa wb ? fsa ? HM HS]; subst. inversion HS; subst. cbn in HM. now rewrite app_nil_r.
  - intros H. rewrite <- (app_nil_r w). econstructor; [exact H|constructor].
Qed.

(** Fields that are not declared in the members keep their values. *)
Definition touched (g : string) (m : member) : Prop := exists nm, In nm (fieldNames m) /\ camel nm = g.
Lemma encM_frame : forall m cenv pos fs w tail fs', EncM cenv pos m fs w tail fs' ->
  forall g, ~ touched g m -> alookup g fs' = alookup g fs.
Proof.
  induction m as [nm t|u tag len cs IH| | |] using member_ind'; intros cenv pos fs w tail fs' H g N.
  - inversion H; subst. rewrite setField_assign. apply alookup_assign_other. intros ->. apply N. exists nm. split; auto. now left.
  - assert (C : exists x tl, EncCase cenv pos cs x fs w tl fs') by (inversion H; subst; eauto).
    destruct C as (x & tl & C). inversion C as [? ? ? c ? ? ? ? T HS| ]; subst; auto.
    assert (Ic : In c cs) by (destruct T as [(pre & post & -> & _)|(_ & I & _)]; auto; apply in_or_app; right; now left).
    rewrite Forall_forall in IH. specialize (IH _ Ic). destruct c as [l ms]. cbn [ucase_members] in *.
    assert (NM : forall m, In m ms -> ~ touched g m).
    { intros m Im (nm & I1 & I2). apply N. exists nm. split; auto. cbn [fieldNames]. apply in_flat_map. exists (UCase l ms). split; auto.
      apply in_flat_map. eauto. }
    clear - IH NM HS. revert pos fs w HS. induction ms as [|m ms IHm]; intros pos fs w HS.
    + inversion HS; subst; auto.
    + inversion HS as [|? ? ? ? wa wb ? fsa ? HM HS']; subst.
      rewrite (IHm (Forall_inv_tail IH) ltac:(intros; apply NM; now right) _ _ _ HS').
      eapply (Forall_inv IH); eauto. apply NM. now left.
  - inversion H; subst; auto.
  - inversion H.
  - inversion H; subst; auto.
Qed.
Lemma encMs_frame : forall ms cenv pos fs w tail fs', EncMs cenv pos ms fs w tail fs' ->
  forall g, (forall nm, In nm (flat_map fieldNames ms) -> camel nm <> g) -> alookup g fs' = alookup g fs.
Proof.
  induction ms as [|m ms IH]; intros cenv pos fs w tail fs' H g N; inversion H as [|? ? ? ? wa wb ? fsa ? HM HS]; subst; auto.
  cbn [flat_map] in N. rewrite (IH _ _ _ _ _ _ HS) by (intros; apply N, in_or_app; auto).
  eapply encM_frame; eauto. intros (nm & I1 & I2). apply (N nm); auto. apply in_or_app; auto.
Qed.

(** The members that a value actually has: those of the struct itself, and those
    of the union cases that the tag values select. *)
Inductive present (cenv fin : amap value) : list member -> member -> Prop :=
| P_here : forall ms m, In m ms -> present cenv fin ms m
| P_case : forall ms u tag len cs x c m, In (MUnion u tag len cs) ms ->
    refers camel cenv fin tag x -> takes cv cs x c -> present cenv fin (ucase_members c) m ->
    present cenv fin ms m.

Lemma refers_fun : forall cenv fs f x y, refers camel cenv fs f x -> refers camel cenv fs f y -> x = y.
Proof.
  intros cenv fs f x y H1 H2. apply refVal_refers in H1. apply refVal_refers in H2. congruence.
Qed.
Lemma refers_agree : forall cenv fs fs' f x, (rscope f = "" -> alookup (camel (rname f)) fs = alookup (camel (rname f)) fs') ->
  refers camel cenv fs f x -> refers camel cenv fs' f x.
Proof.
  intros cenv fs fs' f x E H. unfold refers in *. destruct (String.eqb_spec (rscope f) "") as [S|S]; auto. now rewrite <- E.
Qed.

(** References a member makes. *)
Definition refsOf (m : member) : list idref :=
  match m with
  | MField _ (TVar _ (Some (LRef f))) => [f]
  | MUnion _ tag (Some (LRef f)) _ => [tag; f]
  | MUnion _ tag _ _ => [tag]
  | _ => []
  end.
Lemma refs_known : forall ctxs k m, checkMember r ctxs k m = true -> forall f, In f (refsOf m) -> exists sz, refWidth r ctxs k f = Some sz.
Proof.
  intros ctxs k [nm t|u tag len cs| | |] C f I; try destruct I.
  - destruct t as [| | | | | |b [[g|i]|]]; cbn in I; try contradiction. destruct I as [->|[]]. cbn in C.
    apply andb_true_iff in C as [_ C]. destruct (refWidth r ctxs k f); [eauto|discriminate].
  - destruct (check_union _ _ _ _ _ _ _ C) as (A & B & _). destruct len as [[g|i]|]; cbn in I; destruct I as [<-|I]; auto.
    + destruct I as [<-|[]]. auto.
    + destruct I.
    + destruct I.
Qed.

Definition knownAfter (k : known) (ms : list member) : known := fold_left addKnown ms k.
Lemma knownAfter_names : forall ms k x, In x (map fst (knownAfter k ms)) -> In x (map fst k) \/ In x (flat_map fieldNames ms).
Proof.
  induction ms as [|m ms IH]; intros k x H; cbn in *; auto. apply IH in H as [H|H].
  - apply addKnown_names in H as [H|H]; auto. right. apply in_or_app; auto.
  - right. apply in_or_app; auto.
Qed.
Lemma checkMembers_app : forall ctxs ms1 ms2 k, checkMembers r ctxs k (ms1 ++ ms2) = checkMembers r ctxs k ms1 && checkMembers r ctxs (knownAfter k ms1) ms2.
Proof.
  induction ms1 as [|m ms1 IH]; intros ms2 k; cbn [app checkMembers]; auto. rewrite IH. cbn [knownAfter fold_left].
  now rewrite andb_assoc.
Qed.

Definition agreeOn (ns : list string) (fs fs' : amap value) : Prop :=
  forall n, In n ns -> alookup (camel n) fs = alookup (camel n) fs'.

Lemma local_refs : forall ctxs k f sz, refWidth r ctxs k f = Some sz -> rscope f = "" -> In (rname f) (map fst k).
Proof. intros. eapply refWidth_local; eauto. Qed.

(** Parsing never adds or removes fields. *)
Lemma setField_dom : forall f v fs, map fst (setField f v fs) = map fst fs.
Proof. induction fs as [|[g w] fs IH]; cbn; auto. destruct (String.eqb f g); cbn; congruence. Qed.
Lemma enc_dom : forall cenv,
  (forall pos fs t v w tail, Enc cenv pos fs t v w tail -> True) /\
  (forall pos fs b vs w tail, EncN cenv pos fs b vs w tail -> True) /\
  (forall pos fs b vs w, EncAll cenv pos fs b vs w -> True) /\
  (forall pos m fs w tail fs', EncM cenv pos m fs w tail fs' -> map fst fs' = map fst fs) /\
  (forall pos cs x fs w tail fs', EncCase cenv pos cs x fs w tail fs' -> map fst fs' = map fst fs) /\
  (forall pos ms fs w tail fs', EncMs cenv pos ms fs w tail fs' -> map fst fs' = map fst fs).
Proof.
  apply (enc_mutind camel cv sv lenient
    (fun cenv pos fs t v w tail _ => True) (fun cenv pos fs b vs w tail _ => True) (fun cenv pos fs b vs w _ => True)
    (fun cenv pos m fs w tail fs' _ => map fst fs' = map fst fs)
    (fun cenv pos cs x fs w tail fs' _ => map fst fs' = map fst fs)
    (fun cenv pos ms fs w tail fs' _ => map fst fs' = map fst fs)); intros; auto using setField_dom; congruence.
Qed.
Lemma encMs_dom : forall cenv pos ms fs w tail fs', EncMs cenv pos ms fs w tail fs' -> map fst fs' = map fst fs.
Proof. intros cenv. apply (enc_dom cenv). Qed.
Lemma encM_dom : forall cenv pos m fs w tail fs', EncM cenv pos m fs w tail fs' -> map fst fs' = map fst fs.
Proof. intros cenv. apply (enc_dom cenv). Qed.
Lemma dom_lookup : forall (fs : amap value) g, In g (map fst fs) <-> alookup g fs <> None.
Proof.
  induction fs as [|[h v] fs IH]; intros g; cbn; [tauto|]. destruct (String.eqb_spec g h) as [->|N].
  - split; [discriminate|auto].
  - rewrite <- IH. split; [intros [E|I]; [congruence|auto]|auto].
Qed.
Lemma set_lookup : forall f v fs, In f (map fst fs) -> alookup f (setField f v fs) = Some v.
Proof.
  induction fs as [|[h x] fs IH]; intros I; [destruct I|]. cbn. destruct (String.eqb_spec f h) as [->|N]; cbn.
  - now rewrite String.eqb_refl.
  - destruct (String.eqb_spec f h); [contradiction|]. destruct I as [E|I]; [cbn in E; congruence|auto].
Qed.

(** Each present member was encoded somewhere; the values of its fields and of
    the references it makes are those in the final struct. *)
Definition encodedIn (cenv fin : amap value) (pos : Z) (w tail : bytes) (m : member) : Prop :=
  exists pre w' post tl more fs1 fs2, w = pre ++ w' ++ post /\ post ++ tail = tl ++ more /\
    EncM cenv (pos + blen pre) m fs1 w' tl fs2 /\ map fst fs2 = map fst fin /\
    agreeOn (fieldNames m) fs2 fin /\
    (forall f x, In f (refsOf m) -> refers camel cenv fs1 f x -> refers camel cenv fin f x).

Lemma split_member : forall ctxs cenv fin ms1 m ms2 k pos fs w tail fs',
  EncMs cenv pos (ms1 ++ m :: ms2) fs w tail fs' -> checkMembers r ctxs k (ms1 ++ m :: ms2) = true ->
  apart camel k (flat_map fieldNames (ms1 ++ m :: ms2)) -> NoDup (map camel (flat_map fieldNames (ms1 ++ m :: ms2))) ->
  agreeOn (map fst k ++ flat_map fieldNames (ms1 ++ m :: ms2)) fs' fin ->
  exists w1 w' w2 fs1 fs2, w = w1 ++ w' ++ w2 /\ EncM cenv (pos + blen w1) m fs1 w' (w2 ++ tail) fs2 /\
    EncMs cenv pos ms1 fs w1 (w' ++ w2 ++ tail) fs1 /\ EncMs cenv (pos + blen w1 + blen w') ms2 fs2 w2 tail fs' /\
    checkMember r ctxs (knownAfter k ms1) m = true /\
    agreeOn (map fst (knownAfter k ms1)) fs1 fin /\ agreeOn (map fst (knownAfter k ms1)) fs2 fin /\ agreeOn (fieldNames m) fs2 fin /\
    apart camel (knownAfter k ms1) (fieldNames m) /\ NoDup (map camel (fieldNames m)).
Proof.
  intros ctxs cenv fin ms1 m ms2 k pos fs w tail fs' H C A ND AG.
  apply encMs_app in H as (w1 & w2 & fs1 & -> & H1 & H2). inversion H2 as [|? ? ? ? wa wb ? fs2 ? HM HS]; subst.
  rewrite checkMembers_app in C. apply andb_true_iff in C as [C1 C2]. cbn [checkMembers] in C2. apply andb_true_iff in C2 as [C2 C3].
  rewrite flat_map_app in *. cbn [flat_map] in *. rewrite !map_app in ND.
  pose proof (NoDup_app_r _ _ ND) as ND2. pose proof (NoDup_app_l _ _ ND2) as NDm.
  assert (KM : forall x y, In x (map fst (knownAfter k ms1)) -> In y (fieldNames m ++ flat_map fieldNames ms2) -> camel x <> camel y).
  { intros x y Hx Hy. apply knownAfter_names in Hx as [Hx|Hx].
    - apply A; auto. apply in_or_app; auto.
    - intros E. apply (NoDup_app_disj _ _ (camel x) ND); [now apply in_map|]. rewrite E, <- map_app. now apply in_map. }
  assert (AF : forall n, In n (map fst (knownAfter k ms1)) -> alookup (camel n) fs' = alookup (camel n) fin).
  { intros n I. apply AG. rewrite !in_app_iff. apply knownAfter_names in I as [I|I]; auto. }
  assert (K2 : agreeOn (map fst (knownAfter k ms1)) fs2 fin).
  { intros n I. rewrite <- AF by auto. symmetry. apply (encMs_frame _ _ _ _ _ _ _ HS). intros nm J E. apply (KM n nm I); auto.
    apply in_or_app; auto. }
  exists w1, wa, wb, fs1, fs2. split; [reflexivity|]. split; [exact HM|]. split; [now rewrite <- app_assoc in H1|]. split; [exact HS|].
  split; [exact C2|]. split; [|split; [|split; [|split]]]; auto.
  - intros n I. rewrite <- K2 by auto. symmetry. apply (encM_frame _ _ _ _ _ _ _ HM). intros (nm & J & E).
    apply (KM n nm I); auto. apply in_or_app; auto.
  - intros n I. rewrite <- AG by (rewrite !in_app_iff; auto). symmetry. apply (encMs_frame _ _ _ _ _ _ _ HS).
    intros nm J E. apply (NoDup_app_disj _ _ (camel n) ND2); [now apply in_map|]. rewrite <- E. now apply in_map.
  - intros x y Hx Hy. apply KM; auto. apply in_or_app; auto.
Qed.

Lemma refs_final : forall ctxs cenv fin k m fs1, checkMember r ctxs k m = true -> agreeOn (map fst k) fs1 fin ->
  forall f x, In f (refsOf m) -> refers camel cenv fs1 f x -> refers camel cenv fin f x.
Proof.
  intros ctxs cenv fin k m fs1 C A f x I H. destruct (refs_known _ _ _ C f I) as [sz W].
  apply (refers_agree cenv fs1); [|exact H]. intros S. apply A. eapply local_refs; eauto.
Qed.

Lemma encCase_inv : forall cenv pos u tag len cs fs w tail fs', EncM cenv pos (MUnion u tag len cs) fs w tail fs' ->
  exists x tl, refers camel cenv fs tag x /\ (tl = tail \/ tl = []) /\ EncCase cenv pos cs x fs w tl fs'.
Proof. intros. inversion H; subst; eauto 7. Qed.

Theorem present_encoded : forall cenv fin ms m, present cenv fin ms m ->
  forall ctxs k pos fs w tail fs', EncMs cenv pos ms fs w tail fs' -> checkMembers r ctxs k ms = true -> forallb defaultsM ms = true ->
  apart camel k (flat_map fieldNames ms) -> NoDup (map camel (flat_map fieldNames ms)) ->
  agreeOn (map fst k ++ flat_map fieldNames ms) fs' fin -> map fst fs' = map fst fin ->
  encodedIn cenv fin pos w tail m.
Proof.
  intros cenv fin ms m P. induction P as [ms m I|ms u tag len cs x c m I R T P IH]; intros ctxs k pos fs w tail fs' H C D A ND AG DM.
  - apply in_split in I as (ms1 & ms2 & ->).
    destruct (split_member _ _ _ _ _ _ _ _ _ _ _ _ H C A ND AG) as (w1 & w' & w2 & fs1 & fs2 & -> & HM & _ & HS & CM & K1 & K2 & KM & _).
    exists w1, w', w2, (w2 ++ tail), [], fs1, fs2. split; auto. split; [now rewrite app_nil_r|]. split; auto.
    split; [|split; [auto|eapply refs_final; eauto]]. rewrite <- DM. symmetry. apply (proj2 (proj2 (proj2 (proj2 (proj2 (enc_dom cenv))))) _ _ _ _ _ _ HS).
  - apply in_split in I as (ms1 & ms2 & ->).
    destruct (split_member _ _ _ _ _ _ _ _ _ _ _ _ H C A ND AG) as (w1 & w' & w2 & fs1 & fs2 & -> & HM & _ & HS2 & CM & K1 & K2 & KM & AM & NDM).
    destruct (encCase_inv _ _ _ _ _ _ _ _ _ _ HM) as (x' & tl & R' & TL & HC).
    assert (x' = x). { eapply refers_fun; [|exact R]. eapply (refs_final _ _ _ _ _ _ CM K1); eauto. destruct len as [[]|]; now left. }
    subst x'. rewrite forallb_app in D. apply andb_true_iff in D as [_ D]. cbn [forallb] in D. apply andb_true_iff in D as [D _].
    cbn [defaultsM] in D. apply andb_true_iff in D as [D1 D2]. apply oneDefaultb_spec in D1.
    assert (HS : EncMs cenv (pos + blen w1) (ucase_members c) fs1 w' tl fs2).
    { inversion HC as [? ? ? c' ? ? ? ? T' HS|? ? ? ? ? _ NT]; subst; [|exfalso; eapply NT; eauto].
      assert (c' = c) by (eapply takes_unique; eauto). now subst c'. }
    assert (Ic : In c cs) by (destruct T as [(pre & post & -> & _)|(_ & Ic & _)]; auto; apply in_or_app; right; now left).
    destruct (check_union _ _ _ _ _ _ _ CM) as (_ & _ & CC). destruct (CC _ Ic) as [_ CMs].
    rewrite forallb_forall in D2. specialize (D2 _ Ic).
    assert (NI : incl (flat_map fieldNames (ucase_members c)) (fieldNames (MUnion u tag len cs))).
    { intros y Hy. cbn [fieldNames]. apply in_flat_map. exists c. split; auto. destruct c; auto. }
    destruct (IH ctxs (knownAfter k ms1) _ _ _ _ _ HS) as (pre & w0 & post & tl' & more & fsa & fsb & -> & E0 & E1 & E2 & E3 & E4); auto.
    + destruct c; auto.
    + intros a b Ha Hb. apply AM; auto.
    + cbn [fieldNames] in NDM.
      assert (X : map camel (flat_map (fun c => match c with UCase _ ms => flat_map fieldNames ms end) cs) =
                  flat_map (fun c => map camel (match c with UCase _ ms => flat_map fieldNames ms end)) cs).
      { clear. induction cs; auto. cbn. now rewrite map_app, IHcs. }
      rewrite X in NDM. pose proof (NoDup_flat_map _ _ _ NDM Ic). destruct c; auto.
    + intros n J. apply in_app_or in J as [J|J]; auto.
    + rewrite <- DM. symmetry. apply (proj2 (proj2 (proj2 (proj2 (proj2 (enc_dom cenv))))) _ _ _ _ _ _ HS2).
    + assert (X : exists more', (post ++ w2) ++ tail = tl' ++ more').
      { destruct TL as [-> | ->].
        - exists more. now rewrite <- app_assoc.
        - rewrite app_nil_r in E0. exists (more ++ w2 ++ tail). rewrite E0. now rewrite <- !app_assoc. }
      destruct X as [more' X]. exists (w1 ++ pre), w0, (post ++ w2), tl', more', fsa, fsb. split; [now rewrite <- !app_assoc|].
      split; [exact X|]. split; [|auto]. rewrite blen_app. now rewrite Z.add_assoc.
Qed.

(** A field that changed is present. *)
Lemma changed_present : forall cenv fin m,
  forall ctxs k pos fs w tail fs', EncM cenv pos m fs w tail fs' -> checkMember r ctxs k m = true ->
  apart camel k (fieldNames m) -> NoDup (map camel (fieldNames m)) ->
  agreeOn (map fst k) fs fin -> agreeOn (fieldNames m) fs' fin ->
  forall g, alookup g fs' = alookup g fs \/ exists nm t, camel nm = g /\ present cenv fin [m] (MField nm t).
Proof.
  intros cenv fin. induction m as [nm t|u tag len cs IH| | |] using member_ind'; intros ctxs k pos fs w tail fs' H C A ND K AG g.
  - inversion H; subst. rewrite setField_assign. destruct (String.eqb_spec g (camel nm)) as [->|N].
    + right. exists nm, t. split; auto. constructor. now left.
    + left. now apply alookup_assign_other.
  - destruct (encCase_inv _ _ _ _ _ _ _ _ _ _ H) as (x & tl & R & _ & HC).
    inversion HC as [? ? ? c ? ? ? ? T HS| ]; subst; [|left; reflexivity].
    assert (RF : refers camel cenv fin tag x) by (eapply (refs_final _ _ _ _ _ _ C K); eauto; destruct len as [[]|]; now left).
    assert (Ic : In c cs) by (destruct T as [(pre & post & -> & _)|(_ & Ic & _)]; auto; apply in_or_app; right; now left).
    destruct (check_union _ _ _ _ _ _ _ C) as (_ & _ & CC). destruct (CC _ Ic) as [_ CMs].
    rewrite Forall_forall in IH. specialize (IH _ Ic). clear HC CC.
    assert (NI : incl (flat_map fieldNames (ucase_members c)) (fieldNames (MUnion u tag len cs))).
    { intros y Hy. cbn [fieldNames]. apply in_flat_map. exists c. split; auto. destruct c; auto. }
    assert (NDM : NoDup (map camel (flat_map fieldNames (ucase_members c)))).
    { cbn [fieldNames] in ND.
      assert (X : map camel (flat_map (fun c => match c with UCase _ ms => flat_map fieldNames ms end) cs) =
                  flat_map (fun c => map camel (match c with UCase _ ms => flat_map fieldNames ms end)) cs).
      { clear. induction cs; auto. cbn. now rewrite map_app, IHcs. }
      rewrite X in ND. pose proof (NoDup_flat_map _ _ _ ND Ic). destruct c; auto. }
    assert (A' : apart camel k (flat_map fieldNames (ucase_members c))) by (intros a b Ha Hb; apply A; auto).
    assert (AG' : agreeOn (flat_map fieldNames (ucase_members c)) fs' fin) by (intros n J; auto).
    assert (G : alookup g fs' = alookup g fs \/ exists nm t, camel nm = g /\ present cenv fin (ucase_members c) (MField nm t)).
    { clear - IH CMs NDM A' AG' HS K. revert k pos fs w HS CMs A' K. induction (ucase_members c) as [|m ms IHm]; intros k pos fs w HS CMs A' K.
      - inversion HS; subst. now left.
      - inversion HS as [|? ? ? ? wa wb ? fs1 ? HM HS']; subst. cbn [checkMembers] in CMs. apply andb_true_iff in CMs as [C1 C2].
        cbn [flat_map] in *. rewrite map_app in NDM.
        assert (F1 : agreeOn (fieldNames m) fs1 fin).
        { intros n J. rewrite <- AG' by (apply in_or_app; auto). symmetry. apply (encMs_frame _ _ _ _ _ _ _ HS').
          intros nm I E. apply (NoDup_app_disj _ _ (camel n) NDM); [now apply in_map|]. rewrite <- E. now apply in_map. }
        assert (K1 : agreeOn (map fst (addKnown k m)) fs1 fin).
        { intros n J. apply addKnown_names in J as [J|J]; auto. rewrite <- K by auto. apply (encM_frame _ _ _ _ _ _ _ HM).
          intros (nm & I & E). apply (A' n nm J); auto. apply in_or_app; auto. }
        destruct (Forall_inv IH ctxs k _ _ _ _ _ HM C1) with (g := g) as [E|(nm & t & E & P)]; auto.
        { intros a b Ha Hb. apply A'; auto. apply in_or_app; auto. }
        { eapply NoDup_app_l; eauto. }
        + destruct (IHm (Forall_inv_tail IH)) with (k := addKnown k m) (pos := pos + blen wa) (fs := fs1) (w := wb) as [E'|(nm & t & E' & P)]; auto.
          { eapply NoDup_app_r; eauto. }
          { intros n J. apply AG'. apply in_or_app; auto. }
          { intros a b Ha Hb. apply addKnown_names in Ha as [Ha|Ha]; [apply A'; auto; apply in_or_app; auto|].
            intros E0. apply (NoDup_app_disj _ _ (camel a) NDM); [now apply in_map|]. rewrite E0. now apply in_map. }
          * left. now rewrite E'.
          * right. exists nm, t. split; auto. inversion P as [? ? I|? ? ? ? ? ? ? ? I]; subst; [constructor; now right|]. eapply P_case; [right; exact I|..]; eauto.
        + right. exists nm, t. split; auto. inversion P as [? ? I|? ? ? ? ? ? ? ? I]; subst.
          * destruct I as [->|[]]. constructor. now left.
          * destruct I as [->|[]]. eapply P_case; [now left|..]; eauto. }
    destruct G as [G|(nm & t & E & P)]; auto. right. exists nm, t. split; auto. eapply P_case; [now left|..]; eauto.
  - inversion H; subst. now left.
  - inversion H.
  - inversion H; subst. now left.
Qed.

Lemma changed_present_ms : forall cenv fin ctxs ms k pos fs w tail fs', EncMs cenv pos ms fs w tail fs' -> checkMembers r ctxs k ms = true ->
  apart camel k (flat_map fieldNames ms) -> NoDup (map camel (flat_map fieldNames ms)) ->
  agreeOn (map fst k) fs fin -> agreeOn (flat_map fieldNames ms) fs' fin ->
  forall g, alookup g fs' = alookup g fs \/ exists nm t, camel nm = g /\ present cenv fin ms (MField nm t).
Proof.
  intros cenv fin ctxs. induction ms as [|m ms IHm]; intros k pos fs w tail fs' HS CMs A' NDM K AG' g.
  - inversion HS; subst. now left.
  - inversion HS as [|? ? ? ? wa wb ? fs1 ? HM HS']; subst. cbn [checkMembers] in CMs. apply andb_true_iff in CMs as [C1 C2].
    cbn [flat_map] in *. rewrite map_app in NDM.
    assert (F1 : agreeOn (fieldNames m) fs1 fin).
    { intros n J. rewrite <- AG' by (apply in_or_app; auto). symmetry. apply (encMs_frame _ _ _ _ _ _ _ HS').
      intros nm I E. apply (NoDup_app_disj _ _ (camel n) NDM); [now apply in_map|]. rewrite <- E. now apply in_map. }
    assert (K1 : agreeOn (map fst (addKnown k m)) fs1 fin).
    { intros n J. apply addKnown_names in J as [J|J]; auto. rewrite <- K by auto. apply (encM_frame _ _ _ _ _ _ _ HM).
      intros (nm & I & E). apply (A' n nm J); auto. apply in_or_app; auto. }
    destruct (changed_present cenv fin m ctxs k _ _ _ _ _ HM C1) with (g := g) as [E|(nm & t & E & P)]; auto.
    { intros a b Ha Hb. apply A'; auto. apply in_or_app; auto. }
    { eapply NoDup_app_l; eauto. }
    + destruct (IHm (addKnown k m) (pos + blen wa) fs1 wb tail fs') with (g := g) as [E'|(nm & t & E' & P)]; auto.
      { intros a b Ha Hb. apply addKnown_names in Ha as [Ha|Ha]; [apply A'; auto; apply in_or_app; auto|].
        intros E0. apply (NoDup_app_disj _ _ (camel a) NDM); [now apply in_map|]. rewrite E0. now apply in_map. }
      { eapply NoDup_app_r; eauto. }
      { intros n J. apply AG'. apply in_or_app; auto. }
      * left. now rewrite E'.
      * right. exists nm, t. split; auto. inversion P as [? ? I|? ? ? ? ? ? ? ? I]; subst; [constructor; now right|].
        eapply P_case; [right; exact I|..]; eauto.
    + right. exists nm, t. split; auto. inversion P as [? ? I|? ? ? ? ? ? ? ? I]; subst.
      * destruct I as [->|[]]. constructor. now left.
      * destruct I as [->|[]]. eapply P_case; [now left|..]; eauto.
Qed.

(* ---------- structs reachable from a struct ---------- *)

Fixpoint structsT (t : type) : list string :=
  match t with
  | TStruct nm => [nm]
  | TFixed b _ | TVar b _ => structsT b
  | _ => []
  end.

(** [s'] is reachable from the members [ms] through the struct names that
    [ment] finds in members. *)
Inductive reaches (ment : member -> list string) (s : struct) : struct -> Prop :=
| Reach_self : reaches ment s s
| Reach_next : forall s1 m nm s2, reaches ment s s1 -> In m (members_of s1) -> In nm (ment m) -> sv nm = Some s2 ->
    reaches ment s s2.

(* ---------- what follows does not matter ---------- *)

(** Does a type or member look at the end of its extent? *)
Fixpoint openT (t : type) : bool :=
  match t with
  | TVar _ None | TVar _ (Some (LLeftover _)) => true
  | TVar b (Some (LRef _)) | TFixed b _ => openT b
  | _ => false
  end.
Fixpoint openM (m : member) : bool :=
  match m with
  | MField _ t => openT t
  | MUnion _ _ None cs => existsb (fun c => match c with UCase _ ms => existsb openM ms end) cs
  | MUnion _ _ (Some (LRef _)) _ => false
  | MUnion _ _ (Some (LLeftover _)) _ => true
  | MEOS | MIgnore => true
  | MFail => false
  end.
(** Structs that stand outside length constraints. *)
Fixpoint exposed (m : member) : list string :=
  match m with
  | MField _ t => structsT t
  | MUnion _ _ None cs => flat_map (fun c => match c with UCase _ ms => flat_map exposed ms end) cs
  | _ => []
  end.
(** Neither [s] nor a struct it exposes looks at the end of the data. *)
Definition selfDelimiting (s : struct) : Prop :=
  forall s' m, reaches exposed s s' -> In m (members_of s') -> openM m = false.

Section Tail.
Variable root : struct.
Hypothesis SD : selfDelimiting root.
Definition okT (t : type) : Prop := openT t = false /\ forall nm s, In nm (structsT t) -> sv nm = Some s -> reaches exposed root s.
Definition okM (m : member) : Prop := openM m = false /\ forall nm s, In nm (exposed m) -> sv nm = Some s -> reaches exposed root s.

Lemma okM_struct : forall s m, reaches exposed root s -> In m (members_of s) -> okM m.
Proof. intros s m R I. split; [eapply SD; eauto|]. intros nm s' J E. eapply Reach_next; eauto. Qed.

Theorem tail_free : forall cenv,
  (forall pos fs t v w tail, Enc cenv pos fs t v w tail -> okT t -> forall tail', Enc cenv pos fs t v w tail') /\
  (forall pos fs b vs w tail, EncN cenv pos fs b vs w tail -> okT b -> forall tail', EncN cenv pos fs b vs w tail') /\
  (forall pos fs b vs w, EncAll cenv pos fs b vs w -> True) /\
  (forall pos m fs w tail fs', EncM cenv pos m fs w tail fs' -> okM m -> forall tail', EncM cenv pos m fs w tail' fs') /\
  (forall pos cs x fs w tail fs', EncCase cenv pos cs x fs w tail fs' -> (forall c, In c cs -> Forall okM (ucase_members c)) ->
     forall tail', EncCase cenv pos cs x fs w tail' fs') /\
  (forall pos ms fs w tail fs', EncMs cenv pos ms fs w tail fs' -> Forall okM ms -> forall tail', EncMs cenv pos ms fs w tail' fs').
Proof.
  apply (enc_mutind camel cv sv lenient
    (fun cenv pos fs t v w tail _ => okT t -> forall tail', Enc cenv pos fs t v w tail')
    (fun cenv pos fs b vs w tail _ => okT b -> forall tail', EncN cenv pos fs b vs w tail')
    (fun cenv pos fs b vs w _ => True)
    (fun cenv pos m fs w tail fs' _ => okM m -> forall tail', EncM cenv pos m fs w tail' fs')
    (fun cenv pos cs x fs w tail fs' _ => (forall c, In c cs -> Forall okM (ucase_members c)) -> forall tail', EncCase cenv pos cs x fs w tail' fs')
    (fun cenv pos ms fs w tail fs' _ => Forall okM ms -> forall tail', EncMs cenv pos ms fs w tail' fs'));
    try (intros; exact I); try (intros; econstructor; solve [eauto]).
  - intros cenv pos fs nm s cenv' fs' w tail ES EX PA _ IH [_ O] tail'. econstructor; eauto. apply IH.
    apply Forall_forall. intros m I. eapply okM_struct; eauto. eapply O; eauto. now left.
  - intros cenv pos fs b vs w _ _ [O _]. discriminate.
  - intros cenv pos fs b i k vs w tail _ _ _ _ [O _]. discriminate.
  - intros cenv pos u tag cs x fs w tail fs' R _ IH [O O'] tail'. econstructor; eauto. apply IH. intros [l ms] Ic. cbn [ucase_members].
    apply Forall_forall. intros m Im. cbn [openM exposed] in *. split.
    + destruct (openM m) eqn:E; auto. rewrite <- O. symmetry. apply existsb_exists. exists (UCase l ms). split; auto.
      apply existsb_exists. eauto.
    + intros nm s J. apply O'. apply in_flat_map. exists (UCase l ms). split; auto. apply in_flat_map. eauto.
  - intros cenv pos u tag i k cs x fs w tail fs' _ _ _ _ _ [O _]. discriminate.
  - intros cenv pos fs [O _]. discriminate.
  - intros cenv pos fs w [O _]. discriminate.
  - intros cenv pos cs x c fs w tail fs' T _ IH O tail'. econstructor; eauto. apply IH. apply O.
    destruct T as [(pre & post & -> & _)|(_ & Ic & _)]; auto. apply in_or_app; right; now left.
  - intros cenv pos m ms fs w1 w2 tail fs1 fs2 _ IH1 _ IH2 F tail'. inversion F; subst. econstructor; eauto.
Qed.
Theorem struct_tail_free : forall cenv fs w tail fs', encStruct camel cv sv lenient cenv root fs w tail fs' ->
  forall tail', encStruct camel cv sv lenient cenv root fs w tail' fs'.
Proof.
  intros cenv fs w tail fs' E tail'. unfold encStruct in *. apply (proj2 (proj2 (proj2 (proj2 (proj2 (tail_free cenv)))))) with (tail := tail); auto.
  apply Forall_forall. intros m I. eapply okM_struct; eauto. constructor.
Qed.
End Tail.

(* ---------- the value determines the bytes ---------- *)

Fixpoint mentions (m : member) : list string :=
  match m with
  | MField _ t => structsT t
  | MUnion _ _ _ cs => flat_map (fun c => match c with UCase _ ms => flat_map mentions ms end) cs
  | _ => []
  end.
Fixpoint ignoring (m : member) : bool :=
  match m with
  | MUnion _ _ _ cs => existsb (fun c => match c with UCase _ ms => existsb ignoring ms end) cs
  | MIgnore => true
  | _ => false
  end.
(** No [ignore] in [s] or any struct in it. *)
Definition ignoreFree (s : struct) : Prop :=
  forall s' m, reaches mentions s s' -> In m (members_of s') -> ignoring m = false.

Definition hasNames (ns : list string) (fs : amap value) : Prop := forall n, In n ns -> In (camel n) (map fst fs).

Lemma passes_fun : forall cenv s a b, passes cenv s a -> passes cenv s b -> a = b.
Proof.
  intros cenv s. unfold passes. induction (scontexts s) as [|x xs IH]; intros a b A B; inversion A as [|? [x1 v1] ? ? [E1 L1] F1]; inversion B as [|? [x2 v2] ? ? [E2 L2] F2]; subst; auto.
  cbn in *. subst. f_equal; [congruence|eauto].
Qed.
Lemma blank_has : forall s, hasNames (flat_map fieldNames (members_of s)) (blank camel cv s).
Proof.
  intros s n I. unfold blank. rewrite map_map. cbn. rewrite fieldNames_list in I. apply in_map_iff in I as ([n' t] & <- & I).
  apply in_map_iff. exists (n', t). split; auto.
Qed.

Section Inj.
Variable root : struct.
Hypothesis IF : ignoreFree root.
Hypothesis Hstr : forall nm s, Struct r nm = Some s -> Extern s = false -> checkStruct camel r s = true.
Definition ifT (t : type) : Prop := forall nm s, In nm (structsT t) -> sv nm = Some s -> reaches mentions root s.
Definition ifM (m : member) : Prop := ignoring m = false /\ forall nm s, In nm (mentions m) -> sv nm = Some s -> reaches mentions root s.

Lemma ifM_struct : forall s m, reaches mentions root s -> In m (members_of s) -> ifM m.
Proof. intros s m R I. split; [eapply IF; eauto|]. intros nm s' J E. eapply Reach_next; eauto. Qed.

Definition I1 cenv (t : type) (v : value) (w : bytes) : Prop := ifT t ->
  forall pos2 fs2 w2 tail2, Enc cenv pos2 fs2 t v w2 tail2 -> w = w2.
Definition I2 cenv (b : type) (vs : list value) (w : bytes) : Prop := ifT b ->
  forall pos2 fs2 w2 tail2, EncN cenv pos2 fs2 b vs w2 tail2 -> w = w2.
Definition I3 cenv (b : type) (vs : list value) (w : bytes) : Prop := ifT b ->
  forall pos2 fs2 w2, EncAll cenv pos2 fs2 b vs w2 -> w = w2.
Definition I4 cenv (m : member) (fs : amap value) (w : bytes) (fs' : amap value) : Prop := ifM m ->
  forall ctxs k, checkMember r ctxs k m = true -> defaultsM m = true -> apart camel k (fieldNames m) -> NoDup (map camel (fieldNames m)) ->
  hasNames (fieldNames m) fs ->
  forall pos2 fs2 w2 tail2 fs2', EncM cenv pos2 m fs2 w2 tail2 fs2' -> hasNames (fieldNames m) fs2 ->
  agreeOn (map fst k) fs fs2 -> agreeOn (fieldNames m) fs' fs2' -> w = w2.
Definition I6 cenv (ms : list member) (fs : amap value) (w : bytes) (fs' : amap value) : Prop := Forall ifM ms ->
  forall ctxs k, checkMembers r ctxs k ms = true -> forallb defaultsM ms = true -> apart camel k (flat_map fieldNames ms) ->
  NoDup (map camel (flat_map fieldNames ms)) -> hasNames (flat_map fieldNames ms) fs ->
  forall pos2 fs2 w2 tail2 fs2', EncMs cenv pos2 ms fs2 w2 tail2 fs2' -> hasNames (flat_map fieldNames ms) fs2 ->
  agreeOn (map fst k) fs fs2 -> agreeOn (flat_map fieldNames ms) fs' fs2' -> w = w2.
Definition I5 cenv (cs : list ucase) (x : Z) (fs : amap value) (w : bytes) (fs' : amap value) : Prop :=
  one_default cs -> (forall c, In c cs -> Forall ifM (ucase_members c)) ->
  forall ctxs k, (forall c, In c cs -> checkMembers r ctxs k (ucase_members c) = true /\ forallb defaultsM (ucase_members c) = true) ->
  forall ns, (forall c, In c cs -> incl (flat_map fieldNames (ucase_members c)) ns /\ NoDup (map camel (flat_map fieldNames (ucase_members c)))) ->
  apart camel k ns -> hasNames ns fs ->
  forall pos2 fs2 w2 tail2 fs2', EncCase cenv pos2 cs x fs2 w2 tail2 fs2' -> hasNames ns fs2 ->
  agreeOn (map fst k) fs fs2 -> agreeOn ns fs' fs2' -> w = w2.

Lemma takes_in : forall cs x c, takes cv cs x c -> In c cs.
Proof. intros cs x c [(pre & post & -> & _)|(_ & Ic & _)]; auto. apply in_or_app; right; now left. Qed.

Lemma checked_parts : forall s, checkStruct camel r s = true ->
  checkMembers r (scontexts s) [] (members_of s) = true /\ forallb defaultsM (members_of s) = true /\
  NoDup (map camel (flat_map fieldNames (members_of s))).
Proof.
  intros s CS. split; [eapply checked_members; eauto|]. unfold checkStruct in CS. rewrite !andb_true_iff in CS.
  split; [tauto|]. apply nodupb_NoDup. tauto.
Qed.

Lemma union_injective : forall cenv u tag len cs x fs w fs', I5 cenv cs x fs w fs' -> refers camel cenv fs tag x -> 
  I4 cenv (MUnion u tag len cs) fs w fs'.
Proof.
  intros cenv u tag len cs x fs w fs' IH R [IG O] ctxs k C D A ND HN pos2 fs2 w2 tail2 fs2' H HN2 K AG.
  destruct (encCase_inv _ _ _ _ _ _ _ _ _ _ H) as (x' & tl & R' & _ & HC).
  assert (R2 : refers camel cenv fs2 tag x) by (eapply (refs_final _ _ _ _ _ _ C K); eauto; destruct len as [[]|]; now left).
  assert (x' = x) by (eapply refers_fun; eauto). subst x'.
  destruct (check_union _ _ _ _ _ _ _ C) as (_ & _ & CC). cbn [defaultsM] in D. apply andb_true_iff in D as [D1 D2].
  rewrite forallb_forall in D2.
  eapply (IH (proj1 (oneDefaultb_spec _) D1)) with (ns := fieldNames (MUnion u tag len cs)); eauto.
  - intros [l ms] Ic. cbn [ucase_members]. apply Forall_forall. intros m Im. cbn [ignoring mentions] in *. split.
    + destruct (ignoring m) eqn:E; auto. rewrite <- IG. symmetry. apply existsb_exists. exists (UCase l ms). split; auto.
      apply existsb_exists. eauto.
    + intros nm s J. apply O. apply in_flat_map. exists (UCase l ms). split; auto. apply in_flat_map. eauto.
  - intros c Ic. split; [apply CC; auto|]. specialize (D2 _ Ic). destruct c; auto.
  - intros c Ic. split.
    + intros y Hy. cbn [fieldNames]. apply in_flat_map. exists c. split; auto. destruct c; auto.
    + cbn [fieldNames] in ND.
      assert (X : map camel (flat_map (fun c => match c with UCase _ ms => flat_map fieldNames ms end) cs) =
                  flat_map (fun c => map camel (match c with UCase _ ms => flat_map fieldNames ms end)) cs).
      { clear. induction cs; auto. cbn. now rewrite map_app, IHcs. }
      rewrite X in ND. pose proof (NoDup_flat_map _ _ _ ND Ic). destruct c; auto.
Qed.

Theorem injective : forall cenv,
  (forall pos fs t v w tail, Enc cenv pos fs t v w tail -> I1 cenv t v w) /\
  (forall pos fs b vs w tail, EncN cenv pos fs b vs w tail -> I2 cenv b vs w) /\
  (forall pos fs b vs w, EncAll cenv pos fs b vs w -> I3 cenv b vs w) /\
  (forall pos m fs w tail fs', EncM cenv pos m fs w tail fs' -> I4 cenv m fs w fs') /\
  (forall pos cs x fs w tail fs', EncCase cenv pos cs x fs w tail fs' -> I5 cenv cs x fs w fs') /\
  (forall pos ms fs w tail fs', EncMs cenv pos ms fs w tail fs' -> I6 cenv ms fs w fs').
Proof.
  apply (enc_mutind camel cv sv lenient
    (fun cenv pos fs t v w tail _ => I1 cenv t v w)
    (fun cenv pos fs b vs w tail _ => I2 cenv b vs w)
    (fun cenv pos fs b vs w _ => I3 cenv b vs w)
    (fun cenv pos m fs w tail fs' _ => I4 cenv m fs w fs')
    (fun cenv pos cs x fs w tail fs' _ => I5 cenv cs x fs w fs')
    (fun cenv pos ms fs w tail fs' _ => I6 cenv ms fs w fs')).
  - intros cenv pos fs sz cst x w tail B L _ _ pos2 fs2 w2 tail2 H. inversion H; subst. eapply bigEndian_inj; eauto. congruence.
  - intros cenv pos fs x w tail B L _ pos2 fs2 w2 tail2 H. inversion H; subst. eapply bigEndian_inj; eauto. congruence.
  - intros cenv pos fs s tail N _ pos2 fs2 w2 tail2 H. inversion H; subst. auto.
  - intros cenv pos fs tail _ pos2 fs2 w2 tail2 H. inversion H; subst. auto.
  - intros cenv pos fs nm s cenv' fs' w tail ES EX PA _ IH O pos2 fs2 w2 tail2 H.
    inversion H as [| | | |? ? ? s2 cenv2 ? ? ? ES2 EX2 PA2 H2| | | |]; subst. assert (s2 = s) by congruence. subst s2.
    assert (cenv2 = cenv') by (eapply passes_fun; eauto). subst cenv2.
    destruct (checked_parts s (Hstr _ _ ES EX)) as (C1 & C2 & C3).
    eapply IH; eauto.
    + apply Forall_forall. intros m I. eapply ifM_struct; eauto. eapply O; eauto. now left.
    + intros a b [].
    + apply blank_has.
    + apply blank_has.
    + intros a [].
    + intros a _. reflexivity.
  - intros cenv pos fs b i k vs w tail _ _ _ IH O pos2 fs2 w2 tail2 H. inversion H; subst. eapply IH; eauto.
  - intros cenv pos fs b f vs w tail _ _ IH O pos2 fs2 w2 tail2 H. inversion H; subst. eapply IH; eauto.
  - intros cenv pos fs b vs w _ IH O pos2 fs2 w2 tail2 H. inversion H; subst. eapply IH; eauto.
  - intros cenv pos fs b i k vs w tail _ _ _ IH O pos2 fs2 w2 tail2 H. inversion H; subst. eapply IH; eauto.
  - intros cenv pos fs b tail O pos2 fs2 w2 tail2 H. inversion H; subst. auto.
  - intros cenv pos fs b v vs w1 w2 tail _ IH1 _ IH2 O pos2 fs2 w' tail2 H. inversion H; subst. f_equal; [eapply IH1|eapply IH2]; eauto.
  - intros cenv pos fs b O pos2 fs2 w2 H. inversion H; subst. auto.
  - intros cenv pos fs b v vs w1 w2 _ _ IH1 _ IH2 O pos2 fs2 w' H. inversion H; subst. f_equal; [eapply IH1|eapply IH2]; eauto.
  - intros cenv pos nm t fs v w tail _ IH [_ O] ctxs k C D A ND HN pos2 fs2 w2 tail2 fs2' H HN2 K AG.
    inversion H as [? ? ? ? v2 ? ? E2| | | | |]; subst. cbn [fieldNames] in *.
    specialize (AG nm (or_introl eq_refl)). rewrite !set_lookup in AG by (apply HN || apply HN2; now left).
    injection AG as <-. eapply IH; eauto.
  - intros cenv pos u tag cs x fs w tail fs' R _ IH. eapply union_injective; eauto.
  - intros cenv pos u tag f cs x fs w tail fs' R _ _ IH. eapply union_injective; eauto.
  - intros cenv pos u tag i k cs x fs w tail fs' R _ _ _ IH. eapply union_injective; eauto.
  - intros cenv pos fs O ctxs k C D A ND HN pos2 fs2 w2 tail2 fs2' H _ _ _. inversion H; subst. auto.
  - intros cenv pos fs w [O _]. discriminate.
  - intros cenv pos cs x c fs w tail fs' T _ IH OD O ctxs k C ns NS A HN pos2 fs2 w2 tail2 fs2' H HN2 K AG.
    inversion H as [? ? ? c2 ? ? ? ? T2 H2|? ? ? ? ? _ NT]; subst; [|exfalso; eapply NT; eauto].
    assert (c2 = c) by (eapply takes_unique; eauto). subst c2. pose proof (takes_in _ _ _ T) as Ic.
    destruct (C _ Ic) as [C1 C2]. destruct (NS _ Ic) as [N1 N2].
    eapply IH; eauto; try (intros a b Ha Hb; apply A; now auto); intros a Ha; auto.
  - intros cenv pos cs x fs tail LN NT OD O ctxs k C ns NS A HN pos2 fs2 w2 tail2 fs2' H HN2 K AG.
    inversion H as [? ? ? c2 ? ? ? ? T2 H2|? ? ? ? ? _ NT2]; subst; auto. exfalso; eapply NT; eauto.
  - intros cenv pos fs tail O ctxs k C D A ND HN pos2 fs2 w2 tail2 fs2' H _ _ _. inversion H; subst. auto.
  - intros cenv pos m ms fs w1 w2 tail fs1 fs2 HM IH1 HS IH2 F ctxs k C D A ND HN pos2 fsb wb tail2 fsb' H HN2 K AG.
    inversion H as [|? ? ? ? u1 u2 ? fsb1 ? HM2 HS2]; subst. inversion F as [|? ? F1 F2]; subst.
    cbn [checkMembers] in C. apply andb_true_iff in C as [C1 C2]. cbn [forallb] in D. apply andb_true_iff in D as [D1 D2].
    cbn [flat_map] in *. rewrite map_app in ND.
    assert (AM : agreeOn (fieldNames m) fs1 fsb1).
    { intros n J. rewrite <- (encMs_frame _ _ _ _ _ _ _ HS (camel n)), <- (encMs_frame _ _ _ _ _ _ _ HS2 (camel n)).
      - apply AG, in_or_app; auto.
      - intros nm I E. apply (NoDup_app_disj _ _ (camel n) ND); [now apply in_map|]. rewrite <- E. now apply in_map.
      - intros nm I E. apply (NoDup_app_disj _ _ (camel n) ND); [now apply in_map|]. rewrite <- E. now apply in_map. }
    assert (w1 = u1).
    { assert (A1 : apart camel k (fieldNames m)) by (intros a b Ha Hb; apply (A a b Ha); apply in_or_app; auto).
      eapply (IH1 F1 ctxs k C1 D1 A1); eauto.
      - eapply NoDup_app_l; eauto.
      - intros a Ha. apply HN, in_or_app; auto.
      - intros a Ha. apply HN2, in_or_app; auto. }
    subst u1. f_equal. eapply (IH2 F2 ctxs (addKnown k m) C2 D2); eauto.
    + intros a b Ha Hb. apply addKnown_names in Ha as [Ha|Ha]; [apply A; auto; apply in_or_app; auto|].
      intros E0. apply (NoDup_app_disj _ _ (camel a) ND); [now apply in_map|]. rewrite E0. now apply in_map.
    + eapply NoDup_app_r; eauto.
    + intros a Ha. rewrite (encM_dom _ _ _ _ _ _ _ HM). apply HN, in_or_app; auto.
    + intros a Ha. rewrite (encM_dom _ _ _ _ _ _ _ HM2). apply HN2, in_or_app; auto.
    + intros n J. apply addKnown_names in J as [J|J]; auto.
      rewrite (encM_frame _ _ _ _ _ _ _ HM (camel n)), (encM_frame _ _ _ _ _ _ _ HM2 (camel n)); auto.
      * intros (nm & I & E). apply (A n nm J); auto. apply in_or_app; auto.
      * intros (nm & I & E). apply (A n nm J); auto. apply in_or_app; auto.
    + intros a Ha. apply AG, in_or_app; auto.
Qed.

Theorem struct_injective : checkStruct camel r root = true -> forall cenv fs w tail fs' fs2 w2 tail2,
  encStruct camel cv sv lenient cenv root fs w tail fs' -> encStruct camel cv sv lenient cenv root fs2 w2 tail2 fs' ->
  hasNames (flat_map fieldNames (members_of root)) fs -> w = w2.
Proof.
  intros CS cenv fs w tail fs' fs2 w2 tail2 E1 E2 HN. destruct (checked_parts _ CS) as (C1 & C2 & C3).
  eapply (proj2 (proj2 (proj2 (proj2 (proj2 (injective cenv))))) _ _ _ _ _ _ E1); eauto.
  - apply Forall_forall. intros m I. eapply ifM_struct; eauto. constructor.
  - intros a b [].
  - intros a Ha. rewrite <- (encMs_dom _ _ _ _ _ _ _ E2), (encMs_dom _ _ _ _ _ _ _ E1). auto.
  - intros a [].
  - intros a _. reflexivity.
Qed.
End Inj.
End Facts.
