(** The decoder of members that have been moved into a struct of their own. *)
From Coq Require Import ZArith String List Bool Lia ZifyBool ZifyNat Permutation.
From Verif Require Import Base Ast IntervalsModel InspectModel InspectSpec GoLang GenModel GenDecode GenCheck
  GenSim GenSimBody GenSimProg GenMono WireSpec WireProofs WireComplete GenTerm WireFacts GenRecv GroupSpec.
Import ListNotations.
Open Scope string_scope.
Open Scope list_scope.
Open Scope Z_scope.

Section Group.
Variable camel : string -> string.
Variable r : resolver.
Notation cv := (Constant r).

(** The side on which fuel may run out first: [true] is the left one. *)
Variable dir : bool.
Definition ord {A} (o o' : outcome A) : Prop := if dir then le o o' else le o' o.
Definition lens (m m' : nat) : Prop := if dir then (m <= m')%nat else (m' <= m)%nat.
Lemma ord_refl : forall {A} (o : outcome A), ord o o.
Proof. intros A o. unfold ord. destruct dir; apply le_refl. Qed.
Lemma ord_eq : forall {A} (o o' : outcome A), o = o' -> ord o o'.
Proof. intros A o o' ->. apply ord_refl. Qed.
Lemma ord_bind : forall {A B} (o o' : outcome A) (f f' : A -> outcome B), ord o o' -> (forall a, ord (f a) (f' a)) -> ord (bind o f) (bind o' f').
Proof. intros A B o o' f f'. unfold ord. destruct dir; intros; now apply le_bind. Qed.
Lemma ord_within : forall {A} k c (b b' : bytes -> outcome (A * bytes)), (forall c, ord (b c) (b' c)) -> ord (decWithin k c b) (decWithin k c b').
Proof. intros A k c b b'. unfold ord. destruct dir; intros; now apply within_mono. Qed.
Lemma ord_leaving : forall {A} k c (b b' : bytes -> outcome (A * bytes)), (forall c, ord (b c) (b' c)) -> ord (decLeaving k c b) (decLeaving k c b').
Proof. intros A k c b b'. unfold ord. destruct dir; intros; now apply leaving_mono. Qed.

(** Related results of members. *)
Definition rel (Q : amap value -> amap value -> Prop) (o o' : outcome (amap value * bytes)) : Prop :=
  match o, o' with
  | OutOfFuel, _ => dir = true \/ o' = OutOfFuel
  | _, OutOfFuel => dir = false
  | Ok (a, c), Ok (a', c') => c = c' /\ Q a a'
  | Err e, Err e' => e = e'
  | Panic m, Panic m' => m = m'
  | _, _ => False
  end.
Lemma rel_bind : forall Q Q' o o' k k', rel Q o o' -> (forall a a' c, Q a a' -> rel Q' (k (a, c)) (k' (a', c))) -> rel Q' (bind o k) (bind o' k').
Proof.
  intros Q Q' o o' k k' R K. destruct o as [[a c]|e|m|], o' as [[a' c']|e'|m'|]; cbn [rel bind] in *; auto; try contradiction; try discriminate.
  - destruct R as [-> R]. auto.
  - unfold rel. destruct (k (a, c)) as [[]| | |]; auto.
  - destruct R as [R|R]; [auto|discriminate].
Qed.
Lemma rel_ord : forall {A} Q (o o' : outcome A) k k', ord o o' -> (forall x, rel Q (k x) (k' x)) -> rel Q (bind o k) (bind o' k').
Proof.
  intros A Q o o' k k' R K. assert (X : (o = OutOfFuel /\ dir = true) \/ (o' = OutOfFuel /\ dir = false) \/ o = o').
  { revert R. unfold ord, le. destruct dir; intros [R|R]; auto. }
  destruct X as [[-> D]|[[-> D]| ->]]; cbn [bind].
  - unfold rel. auto.
  - unfold rel. destruct (bind o k) as [[]| | |]; auto.
  - destruct o' as [x| | |]; cbn; auto.
Qed.
Lemma rel_weak : forall (Q Q' : amap value -> amap value -> Prop) o o', (forall a a', Q a a' -> Q' a a') -> rel Q o o' -> rel Q' o o'.
Proof. intros Q Q' o o' H R. unfold rel in *. destruct o as [[]| | |], o' as [[]| | |]; auto. destruct R; auto. Qed.
Lemma rel_within : forall Q k c b b', (forall c, rel Q (b c) (b' c)) -> rel Q (decWithin k c b) (decWithin k c b').
Proof.
  intros Q k c b b' H. unfold decWithin. destruct (blen c <? k); [reflexivity|]. destruct (k <? 0); [reflexivity|].
  eapply rel_bind; [apply H|]. intros a a' c1 HQ. destruct (0 <? blen c1); cbn; auto.
Qed.
Lemma rel_leaving : forall Q k c b b', (forall c, rel Q (b c) (b' c)) -> rel Q (decLeaving k c b) (decLeaving k c b').
Proof. intros Q k c b b' H. unfold decLeaving. destruct (k <? 0); [reflexivity|]. destruct (blen c <? k); [reflexivity|]. now apply rel_within. Qed.

(** Contexts that agree on names. *)
Definition agreeC (ctxs : list string) (cenv cenv' : amap value) : Prop := forall x, In x ctxs -> alookup x cenv = alookup x cenv'.

(* ---------- the same members on two maps of fields ---------- *)
Section Shift.
Variable dcall dcall' : string -> amap value -> bytes -> outcome (value * bytes).
Variable n n' : nat.
Variable cenv cenv' : amap value.
Variable dat dat' : bytes.
Variable ctxs : list string.
Variable N : list string.
Hypothesis Hn : lens n n'.
Hypothesis Hcall : forall nm s c, Struct r nm = Some s -> (forall x, In x (scontexts s) -> In x ctxs) -> ord (dcall nm cenv c) (dcall' nm cenv' c).
Hypothesis HC : agreeC ctxs cenv cenv'.

Notation Agree := (agreeOn camel N).
Lemma shift_ref : forall k fs fs' f sz, incl (map fst k) N -> Agree fs fs' -> refWidth r ctxs k f = Some sz -> refVal camel fs cenv f = refVal camel fs' cenv' f.
Proof.
  intros k fs fs' f sz I A W. unfold refVal. destruct (String.eqb_spec (rscope f) "") as [S|S].
  - rewrite (A (rname f)); auto. apply I. eapply refWidth_local; eauto.
  - unfold refWidth in W. destruct (String.eqb_spec (rscope f) ""); [contradiction|]. unfold ctxField in W. destruct (memb (rscope f) ctxs) eqn:M; [|discriminate].
    rewrite (HC (rscope f)); auto. unfold memb in M. apply existsb_exists in M as (y & Iy & E). apply String.eqb_eq in E. now subst y.
Qed.
Lemma shift_base : forall t c, checkBase r ctxs t = true -> noPtrT t = true \/ blen dat = blen dat' ->
  ord (decBase r dcall cenv (blen dat) t c) (decBase r dcall' cenv' (blen dat') t c).
Proof.
  intros t c C P. destruct t as [| | | |nm| |]; cbn [decBase]; try apply ord_refl.
  - destruct P as [P|P]; [discriminate|]. rewrite P. apply ord_refl.
  - cbn in C. destruct (Struct r nm) as [s|] eqn:E; [|discriminate]. apply andb_true_iff in C as [_ C]. rewrite forallb_forall in C. eapply Hcall; eauto.
    intros x I. specialize (C x I). unfold memb in C. apply existsb_exists in C as (y & Iy & Ey). apply String.eqb_eq in Ey. now subst y.
Qed.
Lemma shift_for : forall t, checkBase r ctxs t = true -> noPtrT t = true \/ blen dat = blen dat' -> forall m m' k c, lens m m' ->
  ord (decFor r dcall cenv (blen dat) m t k c) (decFor r dcall' cenv' (blen dat') m' t k c).
Proof.
  intros t C P. induction m as [|m IH]; intros m' k c L.
  - destruct m' as [|m']; cbn [decFor]; destruct (k <=? 0); try apply ord_refl. unfold lens, ord in *. destruct dir; [now left|lia].
  - destruct m' as [|m']; cbn [decFor]; destruct (k <=? 0); try apply ord_refl.
    + unfold lens, ord in *. destruct dir; [lia|now left].
    + apply ord_bind; [now apply shift_base|]. intros [v c1]. apply ord_bind; [|intros [vs c2]; apply ord_refl]. apply IH. unfold lens in *. destruct dir; lia.
Qed.
Lemma shift_while : forall t, checkBase r ctxs t = true -> noPtrT t = true \/ blen dat = blen dat' -> forall m m' c, lens m m' ->
  ord (decWhile r dcall cenv (blen dat) m t c) (decWhile r dcall' cenv' (blen dat') m' t c).
Proof.
  intros t C P. induction m as [|m IH]; intros m' c L.
  - destruct m' as [|m']; cbn [decWhile]; destruct (blen c <=? 0); try apply ord_refl. unfold lens, ord in *. destruct dir; [now left|lia].
  - destruct m' as [|m']; cbn [decWhile]; destruct (blen c <=? 0); try apply ord_refl.
    + unfold lens, ord in *. destruct dir; [lia|now left].
    + apply ord_bind; [now apply shift_base|]. intros [v c1]. apply ord_bind; [|intros [vs c2]; apply ord_refl]. apply IH. unfold lens in *. destruct dir; lia.
Qed.
Lemma shift_type : forall k fs fs' t c, incl (map fst k) N -> Agree fs fs' -> checkType r ctxs k t = true -> noPtrT t = true \/ blen dat = blen dat' ->
  ord (decType camel r dcall n cenv (blen dat) fs t c) (decType camel r dcall' n' cenv' (blen dat') fs' t c).
Proof.
  intros k fs fs' t c I A C P. destruct t as [sz cst| | | |nm|b i|b [[f|i]|]]; cbn [decType]; try (apply shift_base; assumption); cbn [checkType noPtrT] in *.
  - apply andb_true_iff in C as [C _]. apply ord_bind; [apply ord_refl|]. intros x. apply ord_bind; [now apply shift_for|]. intros [vs c1]. apply ord_refl.
  - apply andb_true_iff in C as [C W]. destruct (refWidth r ctxs k f) as [sz|] eqn:E; [|discriminate]. rewrite (shift_ref _ _ _ _ _ I A E).
    apply ord_bind; [apply ord_refl|]. intros x. apply ord_bind; [apply ord_refl|]. intros g.
    match goal with |- context [if ?b then _ else _] => destruct b end; [apply ord_refl|]. apply ord_bind; [now apply shift_for|]. intros [vs c1]. apply ord_refl.
  - apply andb_true_iff in C as [C _]. apply ord_bind; [apply ord_refl|]. intros x. apply ord_leaving. intros c0. apply ord_bind; [now apply shift_while|]. intros [vs c1]. apply ord_refl.
  - apply ord_bind; [now apply shift_while|]. intros [vs c1]. apply ord_refl.
Qed.

(** What the members do to two maps of fields: those in [N] stay equal, the others are left alone. *)
Definition kept (fs fs' a a' : amap value) : Prop :=
  Agree a a' /\ (forall key, ~ In key (map camel N) -> alookup key a = alookup key fs /\ alookup key a' = alookup key fs') /\
  map fst a = map fst fs /\ map fst a' = map fst fs'.
Lemma kept_refl : forall fs fs', Agree fs fs' -> kept fs fs' fs fs'.
Proof. intros fs fs' A. split; auto. Qed.
Lemma kept_trans : forall fs fs' a a' b b', kept fs fs' a a' -> kept a a' b b' -> kept fs fs' b b'.
Proof.
  intros fs fs' a a' b b' (A1 & F1 & D1 & D1') (A2 & F2 & D2 & D2'). split; auto. split; [|split; congruence].
  intros key K. destruct (F1 key K), (F2 key K). split; congruence.
Qed.
Lemma kept_assign : forall fs fs' nm v, Agree fs fs' -> In nm N -> kept fs fs' (assign (camel nm) v fs) (assign (camel nm) v fs').
Proof.
  intros fs fs' nm v A I. split; [|split; [|split; apply assign_dom]].
  - intros x Ix. rewrite !alookup_assign. rewrite (A nm I). rewrite (A x Ix). reflexivity.
  - intros key K. assert (key <> camel nm) by (intros ->; apply K; now apply in_map). rewrite !alookup_assign_other; auto.
Qed.
Definition shifts (m : member) : Prop := forall k fs fs' c, checkMember r ctxs k m = true -> noPtrM m = true \/ blen dat = blen dat' ->
  incl (map fst k) N -> incl (namesIn [m]) N -> Agree fs fs' ->
  rel (kept fs fs') (decMember camel r dcall n cenv (blen dat) m fs c) (decMember camel r dcall' n' cenv' (blen dat') m fs' c).
Lemma namesIn_cons : forall m ms, namesIn (m :: ms) = namesIn [m] ++ namesIn ms.
Proof. intros. unfold namesIn. cbn [flat_map]. now rewrite app_nil_r, map_app. Qed.
Lemma known_incl : forall k m, incl (map fst k) N -> incl (namesIn [m]) N -> incl (map fst (addKnown k m)) N.
Proof. intros k m I J x. destruct m as [nm []| | | |]; cbn; auto. intros [<-|H]; auto. apply J. now left. Qed.
Lemma shift_members0 : forall ms, Forall shifts ms -> forall k fs fs' c, checkMembers r ctxs k ms = true -> forallb noPtrM ms = true \/ blen dat = blen dat' ->
  incl (map fst k) N -> incl (namesIn ms) N -> Agree fs fs' ->
  rel (kept fs fs') (decMembers camel r dcall n cenv (blen dat) ms fs c) (decMembers camel r dcall' n' cenv' (blen dat') ms fs' c).
Proof.
  induction ms as [|m ms IH]; intros F k fs fs' c C P I J A; cbn [decMembers].
  - cbn. split; auto. now apply kept_refl.
  - cbn [checkMembers] in C. apply andb_true_iff in C as [C1 C2]. rewrite namesIn_cons in J.
    assert (J1 : incl (namesIn [m]) N) by (intros x Hx; apply J, in_app_iff; auto). assert (J2 : incl (namesIn ms) N) by (intros x Hx; apply J, in_app_iff; auto).
    assert (P1 : noPtrM m = true \/ blen dat = blen dat') by (destruct P as [P|]; auto; cbn in P; apply andb_true_iff in P as []; auto).
    assert (P2 : forallb noPtrM ms = true \/ blen dat = blen dat') by (destruct P as [P|]; auto; cbn in P; apply andb_true_iff in P as []; auto).
    eapply rel_bind; [eapply (Forall_inv F); eauto|]. intros a a' c1 K. eapply rel_weak; [|eapply (IH (Forall_inv_tail F) (addKnown k m)); eauto using known_incl].
    + intros b b' K'. eapply kept_trans; eauto.
    + apply K.
Qed.
Lemma names_case : forall u tag len cs l ms, In (UCase l ms) cs -> incl (namesIn ms) (namesIn [MUnion u tag len cs]).
Proof.
  intros u tag len cs l ms I x Hx. unfold namesIn in *. cbn [flat_map allFields]. rewrite app_nil_r. apply in_map_iff in Hx as ([y t] & <- & Hy).
  apply (in_map fst _ (y, t)). apply in_flat_map. exists (UCase l ms). auto.
Qed.
Lemma shift_member : forall m, shifts m.
Proof.
  induction m as [nm t|u tag len cs IH| | |] using member_ind'; intros k fs fs' c C P I J A.
  - cbn [decMember checkMember] in *. eapply rel_ord; [eapply shift_type; eauto|]. intros [v c1]. cbn. split; auto. apply kept_assign; auto. apply J. now left.
  - rewrite !decMember_union. cbn zeta. destruct (check_union _ _ _ _ _ _ _ C) as (W1 & W2 & CC).
    assert (B : forall c, rel (kept fs fs') (x <- refVal camel fs cenv tag ;; decPick camel r dcall n cenv dat cs x cs fs c)
                                            (x <- refVal camel fs' cenv' tag ;; decPick camel r dcall' n' cenv' dat' cs x cs fs' c)).
    { intros c0. destruct W1 as [sz W1]. rewrite (shift_ref _ _ _ _ _ I A W1). eapply rel_ord; [apply ord_refl|]. intros x. rewrite !decPick_choice.
      destruct (choice r x cs cs) as [ms|] eqn:E; [|cbn; split; auto; now apply kept_refl].
      destruct (choice_in r _ _ _ E) as [l Il]. rewrite Forall_forall in IH. specialize (IH _ Il). cbn in IH. destruct (CC _ Il) as [_ CM].
      eapply shift_members0; eauto.
      - destruct P as [P|P]; auto. left. cbn [noPtrM] in P. rewrite forallb_forall in P. exact (P _ Il).
      - intros y Hy. apply J. eapply names_case; eauto. }
    destruct len as [[f|i]|]; cbn [decConstr]; auto.
    + destruct W2 as [sz W]. rewrite (shift_ref _ _ _ _ _ I A W). eapply rel_ord; [apply ord_refl|]. intros x. now apply rel_within.
    + eapply rel_ord; [apply ord_refl|]. intros x. now apply rel_leaving.
  - cbn. destruct (0 <? blen c); cbn; auto. split; auto. now apply kept_refl.
  - reflexivity.
  - cbn. split; auto. now apply kept_refl.
Qed.
Lemma shift_members : forall ms k fs fs' c, checkMembers r ctxs k ms = true -> forallb noPtrM ms = true \/ blen dat = blen dat' ->
  incl (map fst k) N -> incl (namesIn ms) N -> Agree fs fs' ->
  rel (kept fs fs') (decMembers camel r dcall n cenv (blen dat) ms fs c) (decMembers camel r dcall' n' cenv' (blen dat') ms fs' c).
Proof. intros. eapply shift_members0; eauto. apply Forall_forall. intros. apply shift_member. Qed.
End Shift.

(* ---------- calls ---------- *)
Lemma args_agree : forall ns cenv cenv', agreeC ns cenv cenv' -> ctxArgs cenv ns = ctxArgs cenv' ns.
Proof.
  unfold ctxArgs. induction ns as [|x ns IH]; intros cenv cenv' A; cbn [mapM]; auto. rewrite (A x (or_introl eq_refl)). destruct (alookup x cenv') as [v|]; cbn [bind]; auto.
  rewrite (IH cenv cenv'); auto. intros y Hy. apply A. now right.
Qed.
Lemma call_agree : forall m nm s cenv cenv' c, Struct r nm = Some s -> agreeC (scontexts s) cenv cenv' -> decCall camel r m nm cenv c = decCall camel r m nm cenv' c.
Proof. intros m nm s cenv cenv' c E A. destruct m; cbn [decCall]; rewrite E, (args_agree _ _ _ A); reflexivity. Qed.
Lemma args_found : forall ns cenv, (forall x, In x ns -> alookup x cenv <> None) -> exists args, ctxArgs cenv ns = Ok args /\ agreeC ns cenv (combine ns args).
Proof.
  unfold ctxArgs. induction ns as [|x ns IH]; intros cenv H; cbn [mapM].
  - exists []. split; auto. intros x [].
  - destruct (alookup x cenv) as [v|] eqn:E; [|destruct (H x (or_introl eq_refl) E)]. cbn [bind]. destruct (IH cenv) as (args & -> & A); [intros y Hy; apply H; now right|].
    cbn [bind]. exists (v :: args). split; auto. intros y Hy. cbn [combine alookup]. destruct (String.eqb_spec y x) as [->|NE]; auto. destruct Hy as [->|Hy]; [congruence|auto].
Qed.
Lemma blank_found : forall l, NoDup (map (fun f : string * type => camel (fst f)) l) -> forall nm ty, In (nm, ty) l ->
  alookup (camel nm) (map (fun f => (camel (fst f), blankOf cv (snd f))) l) = Some (blankOf cv ty).
Proof.
  induction l as [|[a b] l IH]; intros ND nm ty I; [destruct I|]. cbn [map alookup fst snd] in *. inversion ND as [|? ? N1 N2]; subst.
  destruct (String.eqb_spec (camel nm) (camel a)) as [E|NE].
  - destruct I as [I|I]; [injection I as -> ->; auto|]. exfalso. apply N1. rewrite <- E. exact (in_map (fun f => camel (fst f)) l (nm, ty) I).
  - destruct I as [I|I]; [injection I as -> ->; congruence|auto].
Qed.
Lemma decMembers_app : forall dcall n cenv d ms1 ms2 fs c, decMembers camel r dcall n cenv d (ms1 ++ ms2) fs c =
  bind (decMembers camel r dcall n cenv d ms1 fs c) (fun x => decMembers camel r dcall n cenv d ms2 (fst x) (snd x)).
Proof.
  intros dcall n cenv d. induction ms1 as [|m ms1 IH]; intros ms2 fs c; cbn [app decMembers]; auto.
  destruct (decMember camel r dcall n cenv d m fs c) as [[a c1]| | |]; cbn [bind]; auto.
Qed.

Lemma fuel_call : forall m m' nm s c0 c1 c, lens m m' -> Struct r nm = Some s -> agreeC (scontexts s) c0 c1 -> ord (decCall camel r m nm c0 c) (decCall camel r m' nm c1 c).
Proof.
  intros m m' nm s c0 c1 c L E A. rewrite (call_agree m' nm s c1 c0 c E); [|intros x I; symmetry; auto]. unfold lens, ord in *. destruct dir; apply call_mono; auto.
Qed.

(* ---------- members in two arrangements ---------- *)
Section Sim.
Variable n n' : nat.
Hypothesis Hfuel : n' = if dir then S n else n.
Variable cenv : amap value.
Variable dat : bytes.
Notation d := (blen dat).
Variable ctxs : list string.
Hypothesis Hcenv : forall x, In x ctxs -> alookup x cenv <> None.
Variable O : list string.
Variable gs : list (string * struct).
Hypothesis Hgs : forall x t, In (x, t) gs -> Struct r (sname t) = Some t /\ checkStruct camel r t = true.
Hypothesis D1 : forall nm x t, In nm O -> In (x, t) gs -> camel nm <> camel x /\ ~ In (camel nm) (map camel (namesIn (members_of t))).
Hypothesis D2 : forall x t x' t', In (x, t) gs -> In (x', t') gs -> x <> x' -> camel x <> camel x' /\
  forall y, In y (map camel (namesIn (members_of t))) -> ~ In y (map camel (namesIn (members_of t'))).
Hypothesis D3 : forall x t t', In (x, t) gs -> In (x, t') gs -> t = t'.

Notation dF := (decCall camel r n).
Notation dG := (decCall camel r n').
Notation Unset := (unset camel cv).
Notation Moved := (moved camel).
Definition Inv (fs fs' : amap value) : Prop := regrouped camel cv O gs fs fs'.
Definition post (g : list (string * struct)) (fs fs' a a' : amap value) : Prop :=
  Inv a a' /\ forall x t, In (x, t) gs -> ~ In x (map fst g) -> Unset x t fs fs' -> Unset x t a a'.

Lemma fuel_lens : lens n n'.
Proof. unfold lens. rewrite Hfuel. destruct dir; lia. Qed.

Lemma names_in : forall (t : struct) nm ty, In (nm, ty) (flat_map allFields (members_of t)) -> In (camel nm) (map camel (namesIn (members_of t))).
Proof. intros t nm ty I. apply in_map. unfold namesIn. exact (in_map fst _ (nm, ty) I). Qed.

Lemma kept_post : forall fs fs' a a', Inv fs fs' -> kept O fs fs' a a' -> post [] fs fs' a a'.
Proof.
  intros fs fs' a a' [A G] (A' & F & _).
  assert (X : forall x t, In (x, t) gs -> ~ In (camel x) (map camel O) /\ forall y, In y (map camel (namesIn (members_of t))) -> ~ In y (map camel O)).
  { intros x t I. split.
    - intros J. apply in_map_iff in J as (nm & E & J). destruct (D1 nm x t J I). congruence.
    - intros y Iy J. apply in_map_iff in J as (nm & <- & J). destruct (D1 nm x t J I). auto. }
  assert (U : forall x t, In (x, t) gs -> Unset x t fs fs' -> Unset x t a a').
  { intros x t I [U1 U2]. destruct (X x t I) as [X1 X2]. split; [rewrite (proj2 (F _ X1)); auto|]. intros nm ty J. rewrite (proj1 (F _ (X2 _ (names_in t nm ty J)))). eauto. }
  split; [split; auto|intros; auto]. intros x t I. destruct (G x t I) as [H|(b & H1 & H2 & H3)]; [left; auto|]. right. destruct (X x t I) as [X1 X2].
  exists b. split; [rewrite (proj2 (F _ X1)); auto|]. split; auto. intros nm J. rewrite (proj1 (F _ (X2 _ (in_map camel _ _ J)))). auto.
Qed.

Lemma group_step : forall x t fs fs' c, In (x, t) gs -> (forall y, In y (scontexts t) -> In y ctxs) -> forallb noPtrM (members_of t) = true -> Inv fs fs' -> Unset x t fs fs' ->
  rel (post [(x, t)] fs fs') (decMembers camel r dF n cenv d (members_of t) fs c)
      ('(v, c1) <- dG (sname t) cenv c ;; Ok (assign (camel x) v fs', c1)).
Proof.
  intros x t fs fs' c I IC NP [A G] [U1 U2]. destruct (Hgs x t I) as [ES CS].
  destruct (structDecl_ok camel r t CS) as [ds ED]. destruct (args_found (scontexts t) cenv) as (args & EA & AC); [auto|].
  assert (ND : NoDup (map (fun f : string * type => camel (fst f)) (flat_map allFields (members_of t)))).
  { unfold checkStruct in CS. apply andb_true_iff in CS as [CS _]. apply andb_true_iff in CS as [CS _]. apply andb_true_iff in CS as [_ CS].
    apply nodupb_NoDup in CS. rewrite fieldNames_list, map_map in CS. exact CS. }
  destruct n' as [|q] eqn:EN; cbn [decCall]; rewrite ES, ED; cbn [bind]; rewrite EA; cbn [bind].
  - assert (DF : dir = false) by (revert Hfuel; destruct dir; [discriminate|auto]). unfold rel. destruct (decMembers camel r dF n cenv d (members_of t) fs c) as [[]| | |]; auto.
  - assert (L : lens n q) by (revert Hfuel; unfold lens; destruct dir; lia).
    assert (SR : rel (kept (namesIn (members_of t)) fs (zeros ds)) (decMembers camel r dF n cenv d (members_of t) fs c)
                  (decMembers camel r (decCall camel r q) q (combine (scontexts t) args) (blen c) (members_of t) (zeros ds) c)).
    { apply (shift_members dF (decCall camel r q) n q cenv (combine (scontexts t) args) dat c (scontexts t) (namesIn (members_of t)) L) with (k := []); auto.
      - intros nm s c0 E IN. eapply fuel_call; eauto. intros y Iy. apply AC. auto.
      - now apply (checked_members camel r).
      - intros y [].
      - intros y; auto.
      - intros nm J. unfold namesIn in J. apply in_map_iff in J as ([nm' ty] & E & J). cbn in E. subst nm'. rewrite (U2 nm ty J).
        rewrite (zeros_blank camel r t ds ED). unfold blank. now rewrite (blank_found _ ND nm ty J). }
    destruct (decMembers camel r (decCall camel r q) q (combine (scontexts t) args) (blen c) (members_of t) (zeros ds) c) as [[b c2]|e|e|]; cbn [bind].
    2-4: destruct (decMembers camel r dF n cenv d (members_of t) fs c) as [[a c1]| | |]; cbn in SR |- *; auto.
    destruct (decMembers camel r dF n cenv d (members_of t) fs c) as [[a c1]| | |]; cbn in SR |- *; auto; try contradiction.
    2:{ destruct SR as [SR|SR]; [auto|discriminate]. }
    destruct SR as [-> (SA & SF & _ & SD)]. split; auto.
    assert (OT : forall y, In y (map camel O) -> ~ In y (map camel (namesIn (members_of t)))).
    { intros y J. apply in_map_iff in J as (nm & <- & J). apply (D1 nm x t J I). }
    assert (U : forall x' t', In (x', t') gs -> x' <> x -> Unset x' t' fs fs' -> Unset x' t' a (assign (camel x) (VStruct (camel (sname t)) b) fs')).
    { intros x' t' I' NE [V1 V2]. destruct (D2 x' t' x t I' I NE) as [N1 N2]. split; [rewrite alookup_assign_other; auto|].
      intros nm ty J. rewrite (proj1 (SF _ (N2 _ (names_in t' nm ty J)))). eauto. }
    split; [split|].
    + intros nm J. rewrite (proj1 (SF (camel nm) (OT _ (in_map camel _ _ J)))). rewrite alookup_assign_other by apply (D1 nm x t J I). auto.
    + intros x' t' I'. destruct (string_dec x' x) as [->|NE].
      * rewrite (D3 x t' t I' I). right. exists b. split; [now apply (alookup_assign_same _ _ VNil)|]. split.
        { rewrite SD, (zeros_blank camel r t ds ED). unfold blank, namesIn. rewrite !map_map. reflexivity. }
        intros nm J. symmetry. auto.
      * destruct (G x' t' I') as [H|(b' & H1 & H2 & H3)]; [left; auto|]. right. destruct (D2 x' t' x t I' I NE) as [N1 N2].
        exists b'. split; [rewrite alookup_assign_other; auto|]. split; auto. intros nm J. rewrite (proj1 (SF _ (N2 _ (in_map camel _ _ J)))). auto.
    + intros x' t' I' NI. apply U; auto. intros ->. apply NI. now left.
Qed.

Definition Sim (o : list string) (g : list (string * struct)) (ms ms' : list member) : Prop :=
  forall k fs fs' c, incl o O -> incl g gs -> NoDup (map fst g) -> checkMembers r ctxs k ms' = true -> incl (map fst k) O -> Inv fs fs' ->
  (forall x t, In (x, t) g -> Unset x t fs fs') ->
  rel (post g fs fs') (decMembers camel r dF n cenv d ms fs c) (decMembers camel r dG n' cenv d ms' fs' c).
Definition SimC (o : list string) (g : list (string * struct)) (p p' : option (list member)) : Prop :=
  match p, p' with
  | Some ms, Some ms' => exists o1 g1, incl o1 o /\ incl g1 g /\ (NoDup (map fst g) -> NoDup (map fst g1)) /\ Sim o1 g1 ms ms'
  | None, None => True
  | _, _ => False
  end.
Lemma nodup_right : forall A (l l' : list A), NoDup (l ++ l') -> NoDup l'.
Proof. induction l as [|x l IH]; intros l' H; auto. cbn in H. inversion H; subst. auto. Qed.
Lemma simc_more : forall o g o' g' p p', SimC o g p p' -> SimC (o' ++ o) (g' ++ g) p p'.
Proof.
  intros o g o' g' [ms|] [ms'|]; cbn; auto. intros (o1 & g1 & I & J & ND & S). exists o1, g1. repeat split; auto.
  - intros y Hy. apply in_app_iff; auto.
  - intros y Hy. apply in_app_iff; auto.
  - intros H. apply ND. rewrite map_app in H. exact (nodup_right _ _ _ H).
Qed.
Lemma nodup_left : forall A (l l' : list A), NoDup (l ++ l') -> NoDup l.
Proof. induction l as [|x l IH]; intros l' H; [constructor|]. cbn in H. inversion H; subst. constructor; eauto. intros J. apply H2. apply in_app_iff; auto. Qed.
Lemma nodup_apart : forall A (l l' : list A) x, NoDup (l ++ l') -> In x l -> ~ In x l'.
Proof. induction l as [|y l IH]; intros l' x H I J; [destruct I|]. cbn in H. inversion H; subst. destruct I as [->|I]; [apply H2; apply in_app_iff; auto|eapply IH; eauto]. Qed.

Lemma post_seq : forall g0 g fs fs' a a' b b', post g0 fs fs' a a' -> post g a a' b b' -> post (g0 ++ g) fs fs' b b'.
Proof.
  intros g0 g fs fs' a a' b b' [_ H1] [I2 H2]. split; auto. intros x t I N U. rewrite map_app in N. apply H2; auto; [intros J; apply N, in_app_iff; auto|].
  apply H1; auto. intros J; apply N, in_app_iff; auto.
Qed.

Lemma sim_all : (forall o g ms ms', regroup o g ms ms' -> Sim o g ms ms') /\
  (forall o g cs cs', regroupCases o g cs cs' -> (forall x, SimC o g (pickCase r x cs) (pickCase r x cs')) /\ SimC o g (defaultCase cs) (defaultCase cs')).
Proof.
  apply regroup_mutind.
  - intros k fs fs' c _ _ _ _ _ IV _. cbn. split; auto. split; auto.
  - (* stays *)
    intros m o g ms ms' _ IH k fs fs' c Io Ig ND C K IV UN. cbn [decMembers checkMembers] in *. apply andb_true_iff in C as [C1 C2].
    assert (J1 : incl (namesIn [m]) O) by (intros y Hy; apply Io, in_app_iff; auto).
    eapply rel_bind.
    + eapply rel_weak; [intros a a' Q; apply (kept_post fs fs' a a' IV Q)|].
      apply (shift_member dF dG n n' cenv cenv dat dat ctxs O) with (k := k); auto.
      * apply fuel_lens.
      * intros nm s c0 E IN. eapply fuel_call; eauto; [apply fuel_lens|intros y _; reflexivity].
      * intros y _. reflexivity.
      * exact (proj1 IV).
    + intros a a' c1 P. eapply rel_weak; [intros b b' Q; exact (post_seq [] g _ _ _ _ _ _ P Q)|]. apply (IH (addKnown k m)); auto.
      * intros y Hy. apply Io, in_app_iff; auto.
      * now apply known_incl.
      * apply P.
      * intros x t I. apply (proj2 P); auto.
  - (* union *)
    intros u tag len cs cs' o0 g0 o g ms ms' _ [IHp IHd] _ IH k fs fs' c Io Ig ND C K IV UN. cbn [decMembers checkMembers] in *. apply andb_true_iff in C as [C1 C2].
    rewrite map_app in ND.
    destruct (check_union _ _ _ _ _ _ _ C1) as (W1 & W2 & CC).
    assert (AG : agreeC ctxs cenv cenv) by (intros y _; reflexivity).
    assert (AO : agreeOn camel O fs fs') by exact (proj1 IV).
    assert (B : forall c, rel (post g0 fs fs') (x <- refVal camel fs cenv tag ;; decPick camel r dF n cenv dat cs x cs fs c)
                                               (x <- refVal camel fs' cenv tag ;; decPick camel r dG n' cenv dat cs' x cs' fs' c)).
    { intros c0. destruct W1 as [sz W1]. rewrite (shift_ref cenv cenv ctxs O AG _ _ _ _ _ K AO W1). eapply rel_ord; [apply ord_refl|]. intros x. rewrite !decPick_choice.
      assert (SC : SimC o0 g0 (choice r x cs cs) (choice r x cs' cs')).
      { unfold choice. specialize (IHp x). destruct (pickCase r x cs), (pickCase r x cs'); cbn in IHp; try contradiction; auto. }
      destruct (choice r x cs cs) as [m1|] eqn:E, (choice r x cs' cs') as [m1'|] eqn:E'; cbn in SC; try contradiction; [|cbn; split; auto; split; auto].
      destruct SC as (o1 & g1 & I1 & I2 & N1 & S1). destruct (choice_in r _ _ _ E') as [l Il]. destruct (CC _ Il) as [_ CM].
      eapply rel_weak; [|apply (S1 k); auto].
      - intros a a' [Q1 Q2]. split; auto. intros y t Iy Ny. apply Q2; auto. intros J. apply Ny. apply in_map_iff in J as (z & <- & J). apply in_map. auto.
      - intros y Hy. apply Io, in_app_iff; auto.
      - intros y Hy. apply Ig, in_app_iff; auto.
      - apply N1. eapply nodup_left; eauto.
      - intros y t Iy. apply UN, in_app_iff. auto. }
    eapply rel_bind.
    + instantiate (1 := post g0 fs fs'). rewrite !decMember_union. cbn zeta. destruct len as [[f|i]|]; cbn [decConstr]; auto.
      * destruct W2 as [sz W]. rewrite (shift_ref cenv cenv ctxs O AG _ _ _ _ _ K AO W). eapply rel_ord; [apply ord_refl|]. intros x. now apply rel_within.
      * eapply rel_ord; [apply ord_refl|]. intros x. now apply rel_leaving.
    + intros a a' c1 P. eapply rel_weak; [intros b b' Q; exact (post_seq g0 g _ _ _ _ _ _ P Q)|]. apply (IH k); auto.
      * intros y Hy. apply Io, in_app_iff; auto.
      * intros y Hy. apply Ig, in_app_iff; auto.
      * exact (nodup_right _ _ _ ND).
      * apply P.
      * intros x t I. apply (proj2 P); auto.
        -- apply Ig, in_app_iff; auto.
        -- intros J. apply (nodup_apart _ _ _ x ND J). exact (in_map fst _ _ I).
        -- apply UN, in_app_iff; auto.
  - (* group *)
    intros x t o g ms ms' NP _ IH k fs fs' c Io Ig ND C K IV UN. rewrite decMembers_app. cbn [decMembers checkMembers decMember decType decBase addKnown] in *. apply andb_true_iff in C as [C1 C2].
    assert (I : In (x, t) gs) by (apply Ig; now left). destruct (Hgs x t I) as [ES CS].
    assert (IC : forall y, In y (scontexts t) -> In y ctxs).
    { cbn in C1. rewrite ES in C1. apply andb_true_iff in C1 as [_ C1]. rewrite forallb_forall in C1. intros y Hy. specialize (C1 y Hy). unfold memb in C1.
      apply existsb_exists in C1 as (z & Iz & Ez). apply String.eqb_eq in Ez. now subst z. }
    cbn [map] in ND. inversion ND as [|? ? N1 N2]; subst.
    eapply rel_bind; [apply (group_step x t fs fs' c I IC NP IV); apply UN; now left|].
    intros a a' c1 P. cbn [fst snd]. eapply rel_weak; [intros b b' Q; exact (post_seq [(x, t)] g _ _ _ _ _ _ P Q)|]. apply (IH k); auto.
    + intros y Hy. apply Ig. now right.
    + apply P.
    + intros y ty Iy. apply (proj2 P); [apply Ig; now right| |apply UN; now right]. intros [E|[]]. cbn in E. subst y. apply N1. exact (in_map fst _ _ Iy).
  - split; [intros x|]; exact I.
  - intros l ms ms' cs cs' o g o' g' _ S _ [IHp IHd].
    assert (H : SimC (o ++ o') (g ++ g') (Some ms) (Some ms')).
    { exists o, g. split; [intros y Hy; apply in_app_iff; auto|]. split; [intros y Hy; apply in_app_iff; auto|]. split; auto. rewrite map_app. apply nodup_left. }
    split; [intros x|].
    + cbn [pickCase]. destruct l as [l|]; [destruct (inList r x l); auto|]; apply simc_more; auto.
    + cbn [defaultCase]. destruct l as [l|]; auto. apply simc_more; auto.
Qed.
End Sim.
End Group.
