(** An error at a visited place is the error of the whole parse. *)
From Coq Require Import ZArith String List Bool Lia ZifyBool ZifyNat.
From Verif Require Import Base Ast IntervalsModel InspectModel InspectSpec BranchProofs GoLang GenModel GenDecode GenCheck
  GenSim GenSimBody GenSimProg WireSpec WireProofs WireComplete GenTerm WireFacts ReachSpec.
Import ListNotations.
Open Scope string_scope.
Open Scope list_scope.
Open Scope Z_scope.
Ltac Zify.zify_post_hook ::= Z.div_mod_to_equations.

Section Reach.
Variable camel : string -> string.
Variable r : resolver.
Variables lenient loose : Prop.
Notation cv := (Constant r).
Notation sv := (Struct r).
Notation Enc := (enc camel cv sv lenient).
Notation EncN := (encN camel cv sv lenient).
Notation EncMs := (encMs camel cv sv lenient).
Hypothesis Hstr : forall nm s, Struct r nm = Some s -> Extern s = false ->
  checkStruct camel r s = true /\ forallb ptrM (members_of s) = true /\ roomy r loose (flat_map allFields (members_of s)).

Notation gives := (gives loose).
(** An error or a panic. *)
Inductive stop := Fails (e : string) | Panics (m : string).
Definition stopO {A} (x : stop) : outcome A := match x with Fails e => Err e | Panics m => Panic m end.
(** Once enough fuel is there, the outcome is the error or panic [e]; or a panic. *)
Definition failsAt (pl : place) (cenv fs : amap value) (c : bytes) (d : Z) (e : stop) : Prop :=
  exists n0, forall n, (n0 <= n)%nat ->
    match pl with
    | AtMembers ms => gives (decMembers camel r (decCall camel r n) n cenv d ms fs c) (stopO e)
    | AtMember m => gives (decMember camel r (decCall camel r n) n cenv d m fs c) (stopO e)
    | AtType t => gives (decType camel r (decCall camel r n) n cenv d fs t c) (stopO e)
    end.

Definition Inv (pl : place) (cenv fs : amap value) (ctxs : list string) (k : known) (pos : Z) (dat c : bytes) : Prop :=
  wordc cenv /\ wordf fs /\
  match pl with
  | AtMembers ms => checkMembers r ctxs k ms = true /\ forallb defaultsM ms = true /\ roomy r loose (flat_map allFields ms) /\
      cpos (forallb noPtrM ms) (forallb ptrM ms) pos dat c
  | AtMember m => checkMember r ctxs k m = true /\ defaultsM m = true /\ roomy r loose (allFields m) /\
      cpos (noPtrM m) (ptrM m) pos dat c
  | AtType t => checkType r ctxs k t = true /\ roomT r loose t /\ cpos (noPtrT t) (ptrM (MField "" t)) pos dat c
  end.

Lemma gives_err : forall {A B} (o : outcome A) e (k : A -> outcome B), gives o (stopO e) -> gives (bind o k) (stopO e).
Proof. intros A B o e k [->|[L [m ->]]]; [left; destruct e; reflexivity|]. right. split; auto. exists m. reflexivity. Qed.

Lemma decMembers_split : forall dcall n cenv d ms1 ms2 fs c, decMembers camel r dcall n cenv d (ms1 ++ ms2) fs c =
  ('(fs1, c1) <- decMembers camel r dcall n cenv d ms1 fs c ;; decMembers camel r dcall n cenv d ms2 fs1 c1).
Proof.
  intros dcall n cenv d. induction ms1 as [|m ms1 IH]; intros ms2 fs c; cbn [app decMembers]; auto.
  destruct (decMember camel r dcall n cenv d m fs c) as [[fs1 c1]| | |]; cbn [bind]; auto.
Qed.

Lemma cell_size : forall ctxs b g, checkBase r ctxs b = true -> tipe camel r b = Ok g -> gsize g = cell b /\ 1 <= cell b.
Proof.
  clear Hstr. intros ctxs b g CB Hg. destruct b as [sz cst| | | |nm|b' i|b' o]; try discriminate; cbn [tipe] in Hg; injection Hg as <-;
    cbn [gsize cell]; try (split; [reflexivity|lia]).
  cbn [checkBase] in CB. unfold checkInt, goodSize in CB. split; [reflexivity|lia].
Qed.

Lemma elems_for : forall cenv dat ctxs b e, checkBase r ctxs b = true ->
  forall vs pos fs w c, EncN cenv pos fs b vs w c -> cpos (noPtrT b) true pos dat (w ++ c) -> wordc cenv -> wordf fs ->
  failsAt (AtType b) cenv fs c (blen dat) e -> forall k, blen vs < k ->
  exists n0, forall n m, (n0 <= n)%nat -> (n0 <= m)%nat ->
    gives (decFor r (decCall camel r n) cenv (blen dat) m b k (w ++ c)) (stopO e).
Proof.
  intros cenv dat ctxs b e CB. induction vs as [|v vs IH]; intros pos fs w c E P WC WF [n1 F] k K.
  - inversion E; subst. cbn [app]. exists (S n1). intros n [|m] Hn Hm; [lia|]. cbn [decFor].
    change (blen (@nil value)) with 0 in K. destruct (Z.leb_spec k 0); [lia|]. specialize (F n ltac:(lia)). cbn in F.
    rewrite (proj1 (proj2 (base_type camel r loose ctxs [] b _ _ _ _ _ _ CB))) in F. now apply gives_err.
  - inversion E as [|? ? ? ? ? w1 w2 ? E1 E2]; subst. rewrite <- app_assoc in *. rewrite blen_cons in K.
    destruct (base_type camel r loose ctxs [] b (fun _ _ _ => OutOfFuel) 0 cenv 0 fs [] CB) as (CT & _ & SO & PM).
    destruct (proj1 (complete camel r lenient loose Hstr cenv) _ _ _ _ _ _ E1 ctxs [] dat WC WF CT SO) as [n2 H2]; [now rewrite PM|].
    destruct (IH _ _ _ _ E2 (cpos_next _ _ _ _ _ _ P) WC WF (ex_intro _ n1 F) (k - 1) ltac:(lia)) as [n3 H3].
    exists (S (n2 + n3)). intros n [|m] Hn Hm; [lia|]. cbn [decFor]. pose proof (blen_nonneg vs). destruct (Z.leb_spec k 0); [lia|].
    specialize (H2 n ltac:(lia)). rewrite (proj1 (proj2 (base_type camel r loose ctxs [] b _ _ _ _ _ _ CB))) in H2. eapply gives_bind; [exact H2|]. cbn beta iota.
    apply gives_err. apply H3; lia.
Qed.
Lemma elems_while : forall cenv dat ctxs b e, checkBase r ctxs b = true ->
  forall vs pos fs w c, EncN cenv pos fs b vs w c -> cpos (noPtrT b) true pos dat (w ++ c) -> c <> [] -> wordc cenv -> wordf fs ->
  failsAt (AtType b) cenv fs c (blen dat) e ->
  exists n0, forall n m, (n0 <= n)%nat -> (n0 <= m)%nat ->
    gives (decWhile r (decCall camel r n) cenv (blen dat) m b (w ++ c)) (stopO e).
Proof.
  intros cenv dat ctxs b e CB. induction vs as [|v vs IH]; intros pos fs w c E P NE WC WF [n1 F].
  - inversion E; subst. cbn [app]. exists (S n1). intros n [|m] Hn Hm; [lia|]. cbn [decWhile].
    destruct (Z.leb_spec (blen c) 0) as [L|L]; [exfalso; apply NE, blen0; pose proof (blen_nonneg c); lia|].
    specialize (F n ltac:(lia)). cbn in F.
    rewrite (proj1 (proj2 (base_type camel r loose ctxs [] b _ _ _ _ _ _ CB))) in F. now apply gives_err.
  - inversion E as [|? ? ? ? ? w1 w2 ? E1 E2]; subst. rewrite <- app_assoc in *.
    destruct (base_type camel r loose ctxs [] b (fun _ _ _ => OutOfFuel) 0 cenv 0 fs [] CB) as (CT & _ & SO & PM).
    destruct (proj1 (complete camel r lenient loose Hstr cenv) _ _ _ _ _ _ E1 ctxs [] dat WC WF CT SO) as [n2 H2]; [now rewrite PM|].
    destruct (IH _ _ _ _ E2 (cpos_next _ _ _ _ _ _ P) NE WC WF (ex_intro _ n1 F)) as [n3 H3].
    exists (S (n2 + n3)). intros n [|m] Hn Hm; [lia|]. cbn [decWhile].
    destruct (Z.leb_spec (blen (w1 ++ w2 ++ c)) 0) as [L|L].
    { exfalso. apply NE, blen0. rewrite !blen_app in L. pose proof (blen_nonneg c). pose proof (blen_nonneg w1). pose proof (blen_nonneg w2). lia. }
    specialize (H2 n ltac:(lia)). rewrite (proj1 (proj2 (base_type camel r loose ctxs [] b _ _ _ _ _ _ CB))) in H2. eapply gives_bind; [exact H2|]. cbn beta iota.
    apply gives_err. apply H3; lia.
Qed.

Lemma within_err : forall {A} e rest (body : bytes -> outcome (A * bytes)) x, blen e < two63 -> gives (body e) (stopO x) ->
  gives (decWithin (s64 (blen e)) (e ++ rest) body) (stopO x).
Proof.
  intros A w tail body a L H. pose proof (blen_nonneg w). pose proof (blen_nonneg tail). rewrite s64_id by lia.
  unfold decWithin. rewrite blen_app. destruct (Z.ltb_spec (blen w + blen tail) (blen w)); [lia|].
  destruct (Z.ltb_spec (blen w) 0); [lia|]. rewrite firstn_app_all. now apply gives_err.
Qed.
Lemma leaving_err : forall {A} e rest (body : bytes -> outcome (A * bytes)) x, blen e < two63 -> gives (body e) (stopO x) ->
  gives (decLeaving (blen rest) (e ++ rest) body) (stopO x).
Proof.
  intros A w tail body a L H. pose proof (blen_nonneg w). pose proof (blen_nonneg tail).
  unfold decLeaving. rewrite blen_app. destruct (Z.ltb_spec (blen tail) 0); [lia|].
  destruct (Z.ltb_spec (blen w + blen tail) (blen tail)); [lia|].
  replace (blen w + blen tail - blen tail) with (blen w) by lia. now apply within_err.
Qed.

Lemma pick_taken : forall dcall n cenv dat cs x cse fs c, one_default cs -> takes cv cs x cse ->
  decPick camel r dcall n cenv dat cs x cs fs c = decMembers camel r dcall n cenv (blen dat) (ucase_members cse) fs c.
Proof.
  intros dcall n cenv dat cs x cse fs c OD T.
  destruct (pick_spec camel r dcall n cenv dat cs x fs c cs [] eq_refl (Forall_nil _)) as [(c' & T' & E)|[N _]].
  - rewrite E. now rewrite (takes_unique _ _ _ _ _ OD T T').
  - exfalso. apply (N _ T).
Qed.
Lemma pick_none : forall dcall n cenv dat cs x fs c, (forall cse, ~ takes cv cs x cse) ->
  decPick camel r dcall n cenv dat cs x cs fs c = Ok (fs, c).
Proof.
  intros dcall n cenv dat cs x fs c NT.
  destruct (pick_spec camel r dcall n cenv dat cs x fs c cs [] eq_refl (Forall_nil _)) as [(c' & T' & E)|[_ E]]; auto.
  exfalso. apply (NT _ T').
Qed.

Section Run.
Variable cenv0 : amap value.
Variable s0 : struct.
Variable fs0 : amap value.
Variable data : bytes.
Hypothesis C0 : checkStruct camel r s0 = true.
Hypothesis P0 : forallb ptrM (members_of s0) = true.
Hypothesis S0 : roomy r loose (flat_map allFields (members_of s0)).
Hypothesis L0 : blen data <= maxData.
Hypothesis WC0 : wordc cenv0.
Hypothesis WF0 : wordf fs0.
Notation Visits := (visits camel cv sv lenient cenv0 s0 fs0 data).

Lemma checked_inv : forall s c, checkStruct camel r s = true -> forallb ptrM (members_of s) = true -> roomy r loose (flat_map allFields (members_of s)) ->
  blen c <= maxData -> forall cenv fs, wordc cenv -> wordf fs -> Inv (AtMembers (members_of s)) cenv fs (scontexts s) [] 0 c c.
Proof.
  intros s c CS PT SO L cenv fs WC WF. split; auto. split; auto. destruct (checked_parts camel r s CS) as (A & B & _). split; auto. split; auto. split; auto.
  split; [lia|]. split; auto. right. split; auto. lia.
Qed.

Theorem visits_inv : forall cenv pos pl fs c, Visits cenv pos pl fs c ->
  exists ctxs k dat, Inv pl cenv fs ctxs k pos dat c /\
    forall e, failsAt pl cenv fs c (blen dat) e -> failsAt (AtMembers (members_of s0)) cenv0 fs0 data (blen data) e.
Proof.
  intros cenv pos pl fs c V. induction V as
    [|cenv pos ms1 m ms2 fs w c fs1 V (ctxs & k & dat & (WC & WF & C & D & S & P) & IH) E
    |cenv pos nm t fs c V (ctxs & k & dat & (WC & WF & C & D & S & P) & IH)
    |cenv pos u tag cs x cse fs c V (ctxs & k & dat & (WC & WF & C & D & S & P) & IH) R T
    |cenv pos u tag f cs x cse fs c rest V (ctxs & k & dat & (WC & WF & C & D & S & P) & IH) RL R T
    |cenv pos u tag i cs x cse fs c rest V (ctxs & k & dat & (WC & WF & C & D & S & P) & IH) IV R T
    |cenv pos nm s cenv' fs c V (ctxs & k & dat & (WC & WF & C & S & P) & IH) ES EX PA
    |cenv pos b i kk vs fs w c V (ctxs & k & dat & (WC & WF & C & S & P) & IH) IV LT E
    |cenv pos b f kk vs fs w c V (ctxs & k & dat & (WC & WF & C & S & P) & IH) R LT MX E
    |cenv pos b vs fs w c V (ctxs & k & dat & (WC & WF & C & S & P) & IH) NE E
    |cenv pos b i vs fs w c rest V (ctxs & k & dat & (WC & WF & C & S & P) & IH) IV NE E].
  - exists (scontexts s0), [], data. split; auto. now apply checked_inv.
  - rewrite checkMembers_app in C. apply andb_true_iff in C as [C1 C2]. cbn [checkMembers] in C2. apply andb_true_iff in C2 as [C2 C3].
    rewrite forallb_app in D. apply andb_true_iff in D as [D1 D2]. cbn [forallb] in D2. apply andb_true_iff in D2 as [D2 D3].
    rewrite flat_map_app in S. cbn [flat_map] in S.
    destruct (proj2 (proj2 (proj2 (proj2 (proj2 (complete camel r lenient loose Hstr cenv))))) _ _ _ _ _ _ E ctxs k dat WC WF C1 D1) as (W1 & n2 & H2).
    { intros nm t I. apply (S nm). apply in_or_app; auto. }
    { destruct P as (L & M & P). split; auto. split; auto. rewrite !forallb_app, !andb_true_iff in P. tauto. }
    exists ctxs, (knownAfter k ms1), dat. split.
    + split; auto. split; auto. split; auto. split; auto. split; [intros nm t I; apply (S nm); apply in_or_app; right; apply in_or_app; auto|].
      apply cpos_next in P. destruct P as (L & M & P). split; auto. split; auto. rewrite !forallb_app in P. cbn [forallb] in P.
      rewrite !andb_true_iff in P. tauto.
    + intros e [n1 F]. apply IH.
      exists (n1 + n2)%nat. intros n Hn. cbn beta iota. rewrite decMembers_split. eapply gives_bind; [apply H2; lia|]. cbn [decMembers].
      apply gives_err. apply (F n). lia.
  - exists ctxs, k, dat. split.
    + split; auto. split; auto. split; [exact C|]. split; [apply (S nm); cbn; auto|]. exact P.
    + intros e [n1 F]. apply IH. exists n1. intros n Hn. cbn [decMember]. apply gives_err. exact (F n Hn).
  - rewrite <- (app_nil_l c) in P. destruct (union_cases camel r loose Hstr _ _ _ _ _ _ _ _ _ _ C D S P) as [OD HC]. pose proof (takes_in r _ _ _ T) as I.
    exists ctxs, k, dat. split; [split; auto; split; auto; apply (HC c eq_refl _ I)|].
    intros e [n1 F]. apply IH. exists n1. intros n Hn. cbn beta iota. rewrite decMember_union. cbn zeta. apply refVal_refers in R. rewrite R. cbn [bind].
    rewrite (pick_taken _ _ _ _ _ _ _ _ _ OD T). exact (F n Hn).
  - destruct (union_cases camel r loose Hstr _ _ _ _ _ _ _ _ _ _ C D S P) as [OD HC]. pose proof (takes_in r _ _ _ T) as I.
    exists ctxs, k, dat. split; [split; auto; split; auto; rewrite <- (app_nil_r c); apply (HC [] eq_refl _ I)|].
    intros e [n1 F]. apply IH. exists n1. intros n Hn. cbn beta iota. rewrite decMember_union. cbn zeta. cbn [decConstr]. apply refVal_refers in R, RL. rewrite R, RL. cbn [bind].
    destruct P as (L & M & _). rewrite blen_app in L. pose proof (blen_nonneg rest).
    apply within_err; [unfold maxData, two63 in *; lia|]. rewrite (pick_taken _ _ _ _ _ _ _ _ _ OD T). exact (F n Hn).
  - destruct (union_cases camel r loose Hstr _ _ _ _ _ _ _ _ _ _ C D S P) as [OD HC]. pose proof (takes_in r _ _ _ T) as I.
    exists ctxs, k, dat. split; [split; auto; split; auto; rewrite <- (app_nil_r c); apply (HC [] eq_refl _ I)|].
    intros e [n1 F]. apply IH. exists n1. intros n Hn. cbn beta iota. rewrite decMember_union. cbn zeta. cbn [decConstr].
    apply refVal_refers in R. apply integerOf_value in IV. rewrite R, IV. cbn [bind].
    destruct P as (L & M & _). rewrite blen_app in L. pose proof (blen_nonneg rest).
    apply leaving_err; [unfold maxData, two63 in *; lia|]. rewrite (pick_taken _ _ _ _ _ _ _ _ _ OD T). exact (F n Hn).
  - destruct (Hstr _ _ ES EX) as (CS & PT & SO). destruct P as (L & M & _).
    destruct (structDecl_ok camel r s CS) as [ds Hds]. apply passes_args in PA as (args & HA & ->).
    exists (scontexts s), [], c. split; [apply checked_inv; auto; [lia|eapply ctxs_word; eauto|apply blank_word]|].
    intros e [n1 F]. apply IH.
    exists (Datatypes.S n1). intros [|n] Hn; [lia|]. cbn [decType decBase decCall]. rewrite ES, Hds, HA. cbn [bind].
    rewrite (zeros_blank camel r s ds Hds). apply gives_err. apply (F n). lia.
  - cbn [checkType] in C. apply andb_true_iff in C as [CB CG]. cbn [noPtrT ptrM] in P.
    exists ctxs, k, dat. destruct (base_type camel r loose ctxs k b (fun _ _ _ => OutOfFuel) 0 cenv 0 fs [] CB) as (CT & _ & SO & PM). split.
    + split; auto. split; auto. split; auto. split; auto. apply cpos_next in P. rewrite PM. destruct P as (L & M & P). split; [exact L|]. split; [exact M|]. tauto.
    + intros e F. apply IH. destruct (elems_for cenv dat ctxs b e CB vs pos fs w c E) with (k := kk) as [n0 H0]; auto.
      exists n0. intros n Hn. cbn [decType]. apply integerOf_value in IV. rewrite IV. cbn [bind]. apply gives_err. apply H0; lia.
  - cbn [checkType] in C. apply andb_true_iff in C as [CB CG]. cbn [noPtrT ptrM] in P.
    exists ctxs, k, dat. destruct (base_type camel r loose ctxs k b (fun _ _ _ => OutOfFuel) 0 cenv 0 fs [] CB) as (CT & _ & SO & PM). split.
    + split; auto. split; auto. split; auto. split; auto. apply cpos_next in P. rewrite PM. destruct P as (L & M & P). split; [exact L|]. split; [exact M|]. tauto.
    + intros e F. apply IH. destruct (elems_for cenv dat ctxs b e CB vs pos fs w c E) with (k := kk) as [n0 H0]; auto.
      exists n0. intros n Hn. cbn [decType]. apply refVal_refers in R. rewrite R. cbn [bind].
      destruct (tipe_ok camel r b ctxs k) as [g Hg]; [now apply (base_type camel r loose ctxs k b (decCall camel r n) n cenv 0 fs [])|].
      rewrite Hg. cbn [bind]. change (2 ^ 48) with 281474976710656 in MX. pose proof (blen_nonneg vs).
      destruct (cell_size ctxs b g CB Hg) as [GS GP]. rewrite GS.
      rewrite s64_id by (unfold two63; nia). unfold maxAlloc.
      replace ((kk <? 0) || (281474976710656 <? kk * cell b)) with false.
      2:{ symmetry. apply orb_false_iff. split; [lia|]. apply Z.ltb_ge. nia. }
      apply gives_err. apply H0; lia.
  - cbn [checkType] in C. cbn [noPtrT ptrM] in P.
    exists ctxs, k, dat. destruct (base_type camel r loose ctxs k b (fun _ _ _ => OutOfFuel) 0 cenv 0 fs [] C) as (CT & _ & SO & PM). split.
    + split; auto. split; auto. split; auto. split; auto. apply cpos_next in P. rewrite PM. destruct P as (L & M & P). split; [exact L|]. split; [exact M|]. tauto.
    + intros e F. apply IH. destruct (elems_while cenv dat ctxs b e C vs pos fs w c E) as [n0 H0]; auto.
      exists n0. intros n Hn. cbn [decType]. apply gives_err. apply H0; lia.
  - cbn [checkType] in C. apply andb_true_iff in C as [CB CG]. cbn [noPtrT ptrM] in P.
    exists ctxs, k, dat. destruct (base_type camel r loose ctxs k b (fun _ _ _ => OutOfFuel) 0 cenv 0 fs [] CB) as (CT & _ & SO & PM).
    assert (NP : noPtrT b = true) by (destruct P as (_ & _ & P); tauto).
    assert (P' : cpos (noPtrT b) true pos dat (w ++ c)).
    { destruct P as (L & M & _). rewrite !blen_app in L. pose proof (blen_nonneg rest). split; [rewrite blen_app; lia|]. split; auto. }
    split.
    + split; auto. split; auto. split; auto. split; auto. apply cpos_next in P'. rewrite PM. exact P'.
    + intros e F. apply IH. destruct (elems_while cenv dat ctxs b e CB vs pos fs w c E) as [n0 H0]; auto.
      exists n0. intros n Hn. cbn [decType]. apply integerOf_value in IV. rewrite IV. cbn [bind].
      rewrite app_assoc. destruct P' as (L & M & _). apply leaving_err; [unfold maxData, two63 in *; lia|]. apply gives_err. apply H0; lia.
Qed.

(** Faults are reported. *)
Lemma within_trailing : forall {A} w c rest (body : bytes -> outcome (A * bytes)) a, blen (w ++ c) < two63 -> c <> [] -> gives (body (w ++ c)) (Ok (a, c)) ->
  gives (decWithin (s64 (blen (w ++ c))) ((w ++ c) ++ rest) body) (Err "trailing data disallowed").
Proof.
  intros A w c rest body a L NE H. pose proof (blen_nonneg (w ++ c)). pose proof (blen_nonneg rest). rewrite s64_id by lia.
  unfold decWithin. rewrite (blen_app (w ++ c) rest). destruct (Z.ltb_spec (blen (w ++ c) + blen rest) (blen (w ++ c))); [lia|].
  destruct (Z.ltb_spec (blen (w ++ c)) 0); [lia|]. rewrite firstn_app_all. eapply gives_bind; [exact H|]. cbn beta iota.
  destruct (Z.ltb_spec 0 (blen c)); [apply gives_eq|]. exfalso. apply NE, blen0. pose proof (blen_nonneg c). lia.
Qed.
Lemma refers_width : forall cenv fs f x, refers camel cenv fs f x -> refVal camel fs cenv f = Ok x.
Proof. intros. now apply refVal_refers. Qed.
Lemma fault_fails : forall cenv pos pl fs c e, faulty camel cv sv lenient cenv pos pl fs c e ->
  forall ctxs k dat, Inv pl cenv fs ctxs k pos dat c -> failsAt pl cenv fs c (blen dat) (Fails e).
Proof.
  intros cenv pos pl fs c e F ctxs k dat IV. destruct F as
    [sz cst fs c L|fs|sz l fs w x c B L N|fs c N|b i kk fs c I L|fs c N|fs c|u tag f cs kk fs c R L|u tag i cs kk fs c I L
    |u tag f cs x fs w c rest fs' RT RL E N|u tag i cs x fs w c rest fs' RT I E N].
  - exists O. intros n _. left. cbn [decType decBase]. unfold decInt. destruct (Z.ltb_spec (blen c) (sz / 8)); auto; lia.
  - exists O. intros n _. left. reflexivity.
  - exists O. intros n _. left. cbn [decType decBase]. unfold decInt. apply bigEndian_unique in B as [-> A].
    pose proof (blen_nonneg c). rewrite <- L. rewrite blen_app. destruct (Z.ltb_spec (blen w + blen c) (blen w)); [lia|].
    rewrite firstn_app_all. destruct (inList r (be w) l) eqn:EI; auto. apply inList_spec in EI. contradiction.
  - exists O. intros n _. left. cbn [decType decBase]. unfold decNul.
    destruct (indexByte_found c 0) as [[-> _]|(s & t & -> & NI & E)]; [lia|reflexivity|]. exfalso. apply N. apply in_or_app. right. now left.
  - exists O. intros n _. left. cbn [decType]. apply integerOf_value in I. rewrite I. cbn [bind]. unfold decLeaving.
    pose proof (blen_nonneg c). destruct (Z.ltb_spec kk 0); [lia|]. destruct (Z.ltb_spec (blen c) kk); auto; lia.
  - exists O. intros n _. left. cbn [decMember]. destruct (Z.ltb_spec 0 (blen c)); auto. exfalso. apply N, blen0. pose proof (blen_nonneg c). lia.
  - exists O. intros n _. left. reflexivity.
  - exists O. intros n _. left. cbn beta iota. rewrite decMember_union. cbn zeta. cbn [decConstr]. apply refVal_refers in R. rewrite R. cbn [bind].
    pose proof (blen_nonneg c). change (2 ^ 63) with two63 in L. rewrite s64_id by lia. unfold decWithin.
    destruct (Z.ltb_spec (blen c) kk); auto; lia.
  - exists O. intros n _. left. cbn beta iota. rewrite decMember_union. cbn zeta. cbn [decConstr]. apply integerOf_value in I. rewrite I. cbn [bind].
    unfold decLeaving. pose proof (blen_nonneg c). destruct (Z.ltb_spec kk 0); [lia|]. destruct (Z.ltb_spec (blen c) kk); auto; lia.
  - destruct IV as (WC & WF & C & D & S & P).
    destruct (union_cases camel r loose Hstr _ _ _ _ _ _ _ _ _ _ C D S P) as [OD HC].
    destruct (proj1 (proj2 (proj2 (proj2 (proj2 (complete camel r lenient loose Hstr cenv))))) _ _ _ _ _ _ _ E ctxs k dat WC WF OD) as (_ & n0 & H0).
    { intros c0 I0. specialize (HC [] eq_refl c0 I0). now rewrite app_nil_r in HC. }
    exists n0. intros n Hn. cbn beta iota. rewrite decMember_union. cbn zeta. cbn [decConstr]. apply refVal_refers in RT, RL. rewrite RT, RL. cbn [bind].
    destruct P as (L & M & _). rewrite blen_app in L. pose proof (blen_nonneg rest).
    eapply within_trailing; [unfold maxData, two63 in *; lia|auto|]. apply H0. exact Hn.
  - destruct IV as (WC & WF & C & D & S & P).
    destruct (union_cases camel r loose Hstr _ _ _ _ _ _ _ _ _ _ C D S P) as [OD HC].
    destruct (proj1 (proj2 (proj2 (proj2 (proj2 (complete camel r lenient loose Hstr cenv))))) _ _ _ _ _ _ _ E ctxs k dat WC WF OD) as (_ & n0 & H0).
    { intros c0 I0. specialize (HC [] eq_refl c0 I0). now rewrite app_nil_r in HC. }
    exists n0. intros n Hn. cbn beta iota. rewrite decMember_union. cbn zeta. cbn [decConstr]. apply refVal_refers in RT. apply integerOf_value in I.
    rewrite RT, I. cbn [bind]. destruct P as (L & M & _). rewrite blen_app in L. pose proof (blen_nonneg rest). pose proof (blen_nonneg (w ++ c)).
    unfold decLeaving. destruct (Z.ltb_spec (blen rest) 0); [lia|]. rewrite (blen_app (w ++ c) rest).
    destruct (Z.ltb_spec (blen (w ++ c) + blen rest) (blen rest)); [lia|].
    replace (blen (w ++ c) + blen rest - blen rest) with (blen (w ++ c)) by lia.
    eapply within_trailing; [unfold maxData, two63 in *; lia|auto|]. apply H0. exact Hn.
Qed.

Lemma fails_struct : forall e, failsAt (AtMembers (members_of s0)) cenv0 fs0 data (blen data) e ->
  exists n0, forall n, (n0 <= n)%nat -> gives (decStruct camel r n s0 fs0 cenv0 data) (stopO e).
Proof. intros e [n0 F]. exists (S n0). intros [|n] Hn; [lia|]. cbn [decStruct]. apply F. lia. Qed.
Theorem visit_fails : forall cenv pos pl fs c e, Visits cenv pos pl fs c ->
  (forall d, failsAt pl cenv fs c d e) ->
  exists n0, forall n, (n0 <= n)%nat -> gives (decStruct camel r n s0 fs0 cenv0 data) (stopO e).
Proof.
  intros cenv pos pl fs c e V F. destruct (visits_inv _ _ _ _ _ V) as (ctxs & k & dat & _ & H). apply fails_struct. auto.
Qed.
Theorem fault_reported : forall cenv pos pl fs c e, Visits cenv pos pl fs c -> faulty camel cv sv lenient cenv pos pl fs c e ->
  exists n0, forall n, (n0 <= n)%nat -> gives (decStruct camel r n s0 fs0 cenv0 data) (Err e).
Proof.
  intros cenv pos pl fs c e V F. destruct (visits_inv _ _ _ _ _ V) as (ctxs & k & dat & IV & H). apply (fails_struct (Fails e)).
  apply H. eapply fault_fails; eauto.
Qed.

(** Panics. *)
Lemma burst_fails : forall cenv pl fs c m, bursting camel cenv pl fs c m ->
  forall ctxs k pos dat, Inv pl cenv fs ctxs k pos dat c -> failsAt pl cenv fs c (blen dat) (Panics m).
Proof.
  intros cenv pl fs c m B ctxs k pos dat (WC & WF & IV). destruct B as [b f kk fs c R L|u tag f cs kk fs c R L];
    exists O; intros n _; left; pose proof R as RV; apply refVal_refers in RV;
    pose proof (word_ref camel cenv fs f kk WF WC RV) as W.
  - destruct IV as (C & _). cbn [decType stopO]. rewrite RV. cbn [bind].
    cbn [checkType] in C. apply andb_true_iff in C as [CB CG].
    destruct (tipe_ok camel r b ctxs k) as [g Hg]; [now apply (base_type camel r loose ctxs k b (decCall camel r n) n cenv 0 fs [])|].
    rewrite Hg. cbn [bind]. destruct (cell_size ctxs b g CB Hg) as [GS GP]. rewrite GS. change (2 ^ 48) with 281474976710656 in L.
    unfold maxAlloc. replace ((s64 kk <? 0) || (281474976710656 <? s64 kk * cell b)) with true; auto. symmetry. apply orb_true_iff.
    rewrite Z.ltb_lt, Z.ltb_lt. destruct (Z_lt_le_dec (s64 kk) 0) as [|NN]; [auto|]. right.
    rewrite (s64_word kk W NN). rewrite (s64_word kk W NN) in NN. lia.
  - cbn beta iota. rewrite decMember_union. cbn zeta. cbn [decConstr stopO]. rewrite RV. cbn [bind]. unfold decWithin.
    change (2 ^ 63) with two63 in L. pose proof (blen_nonneg c).
    assert (N : s64 kk < 0) by (destruct (Z_lt_le_dec (s64 kk) 0) as [|NN]; [auto|]; pose proof (s64_word kk W NN) as E; rewrite E in NN; pose proof (s64_range kk); lia).
    destruct (Z.ltb_spec (blen c) (s64 kk)); [lia|]. destruct (Z.ltb_spec (s64 kk) 0); [reflexivity|lia].
Qed.
Theorem burst_reported : forall cenv pos pl fs c m, Visits cenv pos pl fs c -> bursting camel cenv pl fs c m ->
  exists n0, forall n, (n0 <= n)%nat -> gives (decStruct camel r n s0 fs0 cenv0 data) (Panic m).
Proof.
  intros cenv pos pl fs c m V F. destruct (visits_inv _ _ _ _ _ V) as (ctxs & k & dat & IV & H). apply (fails_struct (Panics m)).
  apply H. eapply burst_fails; eauto.
Qed.
End Run.
End Reach.
