(** The decoder accepts every encoding. *)
From Coq Require Import ZArith String List Bool Lia ZifyBool ZifyNat.
From Verif Require Import Base Ast IntervalsModel InspectModel InspectSpec BranchProofs GoLang GenModel GenDecode GenCheck
  GenSim GenSimBody GenSimProg WireSpec WireProofs.
Import ListNotations.
Open Scope string_scope.
Open Scope list_scope.
Open Scope Z_scope.
Ltac Zify.zify_post_hook ::= Z.div_mod_to_equations.

(** The largest input considered: 16 elements-bytes each then still fit in memory. *)
Definition maxData : Z := 17592186044416.   (* 2^44 *)

Section Fix.
Variable camel : string -> string.
Variable r : resolver.
Notation cv := (Constant r).
Notation sv := (Struct r).
Variable lenient : Prop.
Notation Enc := (enc camel cv sv lenient).
Notation EncN := (encN camel cv sv lenient).
Notation EncAll := (encAll camel cv sv lenient).
Notation EncM := (encM camel cv sv lenient).
Notation EncCase := (encCase camel cv sv lenient).
Notation EncMs := (encMs camel cv sv lenient).
Notation Eats := (eats cv sv).

(** Encodings of [eats] declarations are not empty. *)
Lemma encN_eats : forall cenv b, (forall pos fs v w tail, Enc cenv pos fs b v w tail -> 1 <= blen w) ->
  forall vs pos fs w tail, EncN cenv pos fs b vs w tail -> blen vs <= blen w.
Proof.
  intros cenv b H. induction vs as [|v vs IH]; intros pos fs w tail E; inversion E; subst.
  - cbn. lia.
  - rewrite blen_cons, blen_app. match goal with H1 : enc _ _ _ _ _ _ _ b v _ _, H2 : encN _ _ _ _ _ _ _ b vs _ _ |- _ =>
      apply H in H1; apply IH in H2 end. lia.
Qed.

Theorem eats_enc :
  (forall t, Eats t -> forall cenv pos fs v w tail, Enc cenv pos fs t v w tail -> 1 <= blen w) /\
  (forall m, eatsM cv sv m -> forall cenv pos fs w tail fs', EncM cenv pos m fs w tail fs' -> 1 <= blen w) /\
  (forall ms, eatsMs cv sv ms -> forall cenv pos fs w tail fs', EncMs cenv pos ms fs w tail fs' -> 1 <= blen w).
Proof.
  apply (eats_mutind cv sv (fun t _ => forall cenv pos fs v w tail, Enc cenv pos fs t v w tail -> 1 <= blen w)
    (fun m _ => forall cenv pos fs w tail fs', EncM cenv pos m fs w tail fs' -> 1 <= blen w)
    (fun ms _ => forall cenv pos fs w tail fs', EncMs cenv pos ms fs w tail fs' -> 1 <= blen w)).
  - intros sz cst S cenv pos fs v w tail E. inversion E; subst. lia.
  - intros cenv pos fs v w tail E. inversion E; subst. lia.
  - intros cenv pos fs v w tail E. inversion E; subst. rewrite blen_app. change (blen [0]) with 1.
    match goal with |- context [blen ?s + 1] => pose proof (blen_nonneg s) end. lia.
  - intros nm s Hs _ IH cenv pos fs v w tail E. inversion E; subst. assert (s0 = s) by congruence. subst s0. eauto.
  - intros b i k Hi K _ IH cenv pos fs v w tail E. inversion E; subst.
    match goal with H : int_value cv i = Some (blen vs) |- _ => rewrite H in Hi; injection Hi as <- end.
    match goal with H : encN _ _ _ _ _ _ _ b vs _ _ |- _ => apply (encN_eats cenv b) in H; [lia|] end. intros. eapply IH; eauto.
  - intros nm t _ IH cenv pos fs w tail fs' E. inversion E; subst. eauto.
  - intros u tag len cs HD _ IH cenv pos fs w tail fs' E.
    assert (X : exists x tl, EncCase cenv pos cs x fs w tl fs') by (inversion E; subst; eauto).
    destruct X as (x & tl & EC). inversion EC; subst.
    + eapply (IH c); eauto. match goal with H : takes _ _ _ _ |- _ => destruct H as [(p & q & -> & _)|(_ & I & _)]; auto end.
      apply in_or_app. cbn. auto.
    + exfalso. assert (HB : hasDefault cs = true).
      { destruct HD as (c & I & L). unfold hasDefault. apply existsb_exists. exists c. now rewrite L. }
      destruct (hasDefault_takes camel r cs x HB) as [c T].
      match goal with N : forall c, ~ takes _ _ _ c |- _ => apply (N c T) end.
  - intros cenv pos fs w tail fs' E. inversion E.
  - intros m ms _ IH cenv pos fs w tail fs' E. inversion E; subst. rewrite blen_app.
    match goal with H : encM _ _ _ _ _ _ m _ _ _ _ |- _ => apply IH in H end. pose proof (blen_nonneg w2). lia.
  - intros m ms _ IH cenv pos fs w tail fs' E. inversion E; subst. rewrite blen_app.
    match goal with H : encMs _ _ _ _ _ _ ms _ _ _ _ |- _ => apply IH in H end. pose proof (blen_nonneg w1). lia.
Qed.

Lemma gsize_base : forall ctxs b g, checkBase r ctxs b = true -> tipe camel r b = Ok g -> 0 <= gsize g <= 16.
Proof.
  intros ctxs [sz cst| | | |nm|b i|b o] g C H; try discriminate; cbn [tipe] in H; injection H as <-; cbn [gsize]; try lia.
  cbn [checkBase] in C. unfold checkInt, goodSize in C. lia.
Qed.

(** Counted arrays have elements that are never empty. *)
Definition solidT (t : type) : Prop := match t with TVar b (Some (LRef _)) => Eats b | _ => True end.
Definition solid (fl : list (string * type)) : Prop := forall nm t, In (nm, t) fl -> solidT t.

(** With [loose], other arrays as well, but then a run may panic. *)
Variable loose : Prop.
Definition roomT (t : type) : Prop := loose \/ solidT t.
Definition roomy (fl : list (string * type)) : Prop := forall nm t, In (nm, t) fl -> roomT t.
Definition gives {A} (o x : outcome A) : Prop := o = x \/ loose /\ exists m, o = Panic m.
Lemma gives_bind : forall {A B} (o : outcome A) a (k : A -> outcome B) x, gives o (Ok a) -> gives (k a) x -> gives (bind o k) x.
Proof. intros A B o a k x [->|[L [m ->]]] H; [exact H|]. right. split; auto. exists m. reflexivity. Qed.
Lemma gives_eq : forall {A} (x : outcome A), gives x x.
Proof. left. reflexivity. Qed.

Hypothesis Hstr : forall nm s, Struct r nm = Some s -> Extern s = false ->
  checkStruct camel r s = true /\ forallb ptrM (members_of s) = true /\ roomy (flat_map allFields (members_of s)).

Definition cpos (np pt : bool) (pos : Z) (dat c : bytes) : Prop :=
  blen c <= blen dat /\ blen dat <= maxData /\ (np = true \/ pt = true /\ pos = blen dat - blen c).

Lemma cpos_next : forall np pt pos dat w c, cpos np pt pos dat (w ++ c) -> cpos np pt (pos + blen w) dat c.
Proof.
  intros np pt pos dat w c (L & M & P). rewrite blen_app in *. pose proof (blen_nonneg w). split; [lia|]. split; auto.
  destruct P as [P|[P Q]]; auto. right. split; auto. lia.
Qed.

Lemma base_type : forall ctxs k b dcall n cenv d fs c, checkBase r ctxs b = true ->
  checkType r ctxs k b = true /\ decType camel r dcall n cenv d fs b c = decBase r dcall cenv d b c /\ roomT b /\
  ptrM (MField "" b) = true.
Proof. intros ctxs k [] dcall n cenv d fs c H; try discriminate; repeat split; auto; now right. Qed.

Definition C1 (cenv : amap value) (pos : Z) (fs : amap value) (t : type) (v : value) (w tail : bytes) : Prop :=
  forall ctxs k dat, wordc cenv -> wordf fs -> checkType r ctxs k t = true -> roomT t ->
    cpos (noPtrT t) (ptrM (MField "" t)) pos dat (w ++ tail) ->
    exists n0, forall n, (n0 <= n)%nat ->
      gives (decType camel r (decCall camel r n) n cenv (blen dat) fs t (w ++ tail)) (Ok (v, tail)).
Definition C2 (cenv : amap value) (pos : Z) (fs : amap value) (b : type) (vs : list value) (w tail : bytes) : Prop :=
  forall ctxs dat, wordc cenv -> wordf fs -> checkBase r ctxs b = true -> cpos (noPtrT b) true pos dat (w ++ tail) ->
    exists n0, forall n m, (n0 <= n)%nat -> (n0 <= m)%nat ->
      gives (decFor r (decCall camel r n) cenv (blen dat) m b (blen vs) (w ++ tail)) (Ok (vs, tail)).
Definition C3 (cenv : amap value) (pos : Z) (fs : amap value) (b : type) (vs : list value) (w : bytes) : Prop :=
  forall ctxs dat, wordc cenv -> wordf fs -> checkBase r ctxs b = true -> cpos (noPtrT b) true pos dat w ->
    exists n0, forall n m, (n0 <= n)%nat -> (n0 <= m)%nat ->
      gives (decWhile r (decCall camel r n) cenv (blen dat) m b w) (Ok (vs, [])).
Definition C4 (cenv : amap value) (pos : Z) (m : member) (fs : amap value) (w tail : bytes) (fs' : amap value) : Prop :=
  forall ctxs k dat, wordc cenv -> wordf fs -> checkMember r ctxs k m = true ->
    defaultsM m = true -> roomy (allFields m) -> cpos (noPtrM m) (ptrM m) pos dat (w ++ tail) ->
    wordf fs' /\ exists n0, forall n, (n0 <= n)%nat ->
      gives (decMember camel r (decCall camel r n) n cenv (blen dat) m fs (w ++ tail)) (Ok (fs', tail)).
Definition C5 (cenv : amap value) (pos : Z) (cs : list ucase) (x : Z) (fs : amap value) (w tail : bytes) (fs' : amap value) : Prop :=
  forall ctxs k dat, wordc cenv -> wordf fs -> one_default cs ->
    (forall c, In c cs -> checkMembers r ctxs k (ucase_members c) = true /\ forallb defaultsM (ucase_members c) = true /\
       roomy (flat_map allFields (ucase_members c)) /\
       cpos (forallb noPtrM (ucase_members c)) (forallb ptrM (ucase_members c)) pos dat (w ++ tail)) ->
    wordf fs' /\ exists n0, forall n, (n0 <= n)%nat ->
      gives (decPick camel r (decCall camel r n) n cenv dat cs x cs fs (w ++ tail)) (Ok (fs', tail)).
Definition C6 (cenv : amap value) (pos : Z) (ms : list member) (fs : amap value) (w tail : bytes) (fs' : amap value) : Prop :=
  forall ctxs k dat, wordc cenv -> wordf fs -> checkMembers r ctxs k ms = true ->
    forallb defaultsM ms = true -> roomy (flat_map allFields ms) ->
    cpos (forallb noPtrM ms) (forallb ptrM ms) pos dat (w ++ tail) ->
    wordf fs' /\ exists n0, forall n, (n0 <= n)%nat ->
      gives (decMembers camel r (decCall camel r n) n cenv (blen dat) ms fs (w ++ tail)) (Ok (fs', tail)).

Lemma dec_int : forall sz cst x w tail, bigEndian w x -> blen w = sz / 8 ->
  (forall l, cst = Some l -> in_list cv l x) -> decInt r sz cst (w ++ tail) = Ok (VInt x, tail).
Proof.
  intros sz cst x w tail B L C. apply bigEndian_unique in B as [-> A]. unfold decInt. rewrite <- L, firstn_app_all, skipn_app_all.
  rewrite blen_app. pose proof (blen_nonneg tail). destruct (Z.ltb_spec (blen w + blen tail) (blen w)); [lia|].
  destruct cst as [l|]; auto. specialize (C l eq_refl). apply inList_spec in C. now rewrite C.
Qed.
Lemma dec_within : forall {A} w tail (body : bytes -> outcome (A * bytes)) a, blen w < two63 -> gives (body w) (Ok (a, [])) ->
  gives (decWithin (s64 (blen w)) (w ++ tail) body) (Ok (a, tail)).
Proof.
  intros A w tail body a L H. pose proof (blen_nonneg w). pose proof (blen_nonneg tail). rewrite s64_id by lia.
  unfold decWithin. rewrite blen_app. destruct (Z.ltb_spec (blen w + blen tail) (blen w)); [lia|].
  destruct (Z.ltb_spec (blen w) 0); [lia|]. rewrite firstn_app_all.
  eapply gives_bind; [exact H|]. cbn [blen List.length]. rewrite skipn_app_all. apply gives_eq.
Qed.
Lemma dec_leaving : forall {A} w tail (body : bytes -> outcome (A * bytes)) a, blen w < two63 -> gives (body w) (Ok (a, [])) ->
  gives (decLeaving (blen tail) (w ++ tail) body) (Ok (a, tail)).
Proof.
  intros A w tail body a L H. pose proof (blen_nonneg w). pose proof (blen_nonneg tail).
  unfold decLeaving. rewrite blen_app. destruct (Z.ltb_spec (blen tail) 0); [lia|].
  destruct (Z.ltb_spec (blen w + blen tail) (blen tail)); [lia|].
  replace (blen w + blen tail - blen tail) with (blen w) by lia. now apply dec_within.
Qed.

Lemma enc_word : forall cenv pos fs t v w tail ctxs k dat, Enc cenv pos fs t v w tail -> checkType r ctxs k t = true ->
  cpos (noPtrT t) (ptrM (MField "" t)) pos dat (w ++ tail) -> wordv v.
Proof.
  intros cenv pos fs t v w tail ctxs k dat E C P.
  assert (I : forall sz x w, goodSize sz = true -> bigEndian w x -> blen w = sz / 8 -> wordv (VInt x)).
  { intros sz x w' G B L. apply bigEndian_unique in B as [-> A]. pose proof (pow_word sz w' G L A). unfold wordv, two63. lia. }
  inversion E; subst; try exact Logic.I.
  - eapply I; eauto. cbn in C. unfold checkInt in C. now apply andb_true_iff in C.
  - eapply (I 8); eauto.
  - destruct P as (L & M & [P|[_ P]]); [discriminate|]. cbn [app] in *. unfold maxData in M. pose proof (blen_nonneg tail).
    unfold wordv, two63, two64. lia.
Qed.

Lemma check_union : forall ctxs k u tag len cs, checkMember r ctxs k (MUnion u tag len cs) = true ->
  (exists sz, refWidth r ctxs k tag = Some sz) /\
  match len with
  | None => True
  | Some (LRef f) => exists sz, refWidth r ctxs k f = Some sz
  | Some (LLeftover i) => goodCount r i = true
  end /\
  forall c, In c cs -> match ucase_list c with None => True | Some l => definedList r l = true end /\
                       checkMembers r ctxs k (ucase_members c) = true.
Proof.
  intros ctxs k u tag len cs C. cbn [checkMember] in C.
  change (forallb _ cs) with (forallb (fun c => match c with UCase l ms => match l with None => true | Some l' => definedList r l' end && kfix r ctxs k ms end) cs) in C.
  apply andb_true_iff in C as [C C3]. apply andb_true_iff in C as [C1 C2]. split; [|split].
  - destruct (refWidth r ctxs k tag); [eauto|discriminate].
  - destruct len as [[f|i]|]; auto. destruct (refWidth r ctxs k f); [eauto|discriminate].
  - intros [l ms] I. rewrite forallb_forall in C3. specialize (C3 _ I). cbn beta iota in C3. rewrite kfix_eq in C3.
    apply andb_true_iff in C3 as [C3 C4]. cbn. split; auto. destruct l; auto.
Qed.

Lemma union_cases : forall ctxs k u tag len cs pos dat w tail, checkMember r ctxs k (MUnion u tag len cs) = true ->
  defaultsM (MUnion u tag len cs) = true -> roomy (allFields (MUnion u tag len cs)) ->
  cpos (noPtrM (MUnion u tag len cs)) (ptrM (MUnion u tag len cs)) pos dat (w ++ tail) ->
  one_default cs /\
  forall tl, (match len with None => tl = tail | Some _ => tl = [] end) ->
  (forall c, In c cs -> checkMembers r ctxs k (ucase_members c) = true /\ forallb defaultsM (ucase_members c) = true /\
     roomy (flat_map allFields (ucase_members c)) /\
     cpos (forallb noPtrM (ucase_members c)) (forallb ptrM (ucase_members c)) pos dat (w ++ tl)).
Proof.
  intros ctxs k u tag len cs pos dat w tail C D S P. cbn [defaultsM] in D. apply andb_true_iff in D as [D1 D2].
  split; [now apply oneDefaultb_spec|]. intros tl TL [l ms] I. cbn [ucase_members].
  split; [apply (proj2 (proj2 (check_union _ _ _ _ _ _ C)) _ I)|].
  split; [rewrite forallb_forall in D2; apply (D2 _ I)|].
  split. { intros nm t It. apply (S nm). cbn [allFields]. apply in_flat_map. exists (UCase l ms). auto. }
  destruct P as (L & M & P). rewrite !blen_app in *. pose proof (blen_nonneg tail).
  split; [|split; auto].
  - rewrite blen_app. destruct len; subst tl; change (blen (@nil Z)) with 0; lia.
  - destruct P as [P|[P Q]].
    + left. cbn [noPtrM] in P. rewrite forallb_forall in P. apply (P _ I).
    + cbn [ptrM] in P. destruct len as [lc|].
      * left. assert (P' : forallb (fun c => match c with UCase _ ms => forallb noPtrM ms end) cs = true) by (destruct lc; exact P).
        rewrite forallb_forall in P'. apply (P' _ I).
      * right. subst tl. rewrite blen_app. split; auto. rewrite forallb_forall in P. apply (P _ I).
Qed.

Theorem complete : forall cenv,
  (forall pos fs t v w tail, Enc cenv pos fs t v w tail -> C1 cenv pos fs t v w tail) /\
  (forall pos fs b vs w tail, EncN cenv pos fs b vs w tail -> C2 cenv pos fs b vs w tail) /\
  (forall pos fs b vs w, EncAll cenv pos fs b vs w -> C3 cenv pos fs b vs w) /\
  (forall pos m fs w tail fs', EncM cenv pos m fs w tail fs' -> C4 cenv pos m fs w tail fs') /\
  (forall pos cs x fs w tail fs', EncCase cenv pos cs x fs w tail fs' -> C5 cenv pos cs x fs w tail fs') /\
  (forall pos ms fs w tail fs', EncMs cenv pos ms fs w tail fs' -> C6 cenv pos ms fs w tail fs').
Proof.
  apply (enc_mutind camel cv sv lenient
    (fun cenv pos fs t v w tail _ => C1 cenv pos fs t v w tail)
    (fun cenv pos fs b vs w tail _ => C2 cenv pos fs b vs w tail)
    (fun cenv pos fs b vs w _ => C3 cenv pos fs b vs w)
    (fun cenv pos m fs w tail fs' _ => C4 cenv pos m fs w tail fs')
    (fun cenv pos cs x fs w tail fs' _ => C5 cenv pos cs x fs w tail fs')
    (fun cenv pos ms fs w tail fs' _ => C6 cenv pos ms fs w tail fs')).
  - (* int *)
    intros cenv pos fs sz cst x w tail B L C ctxs k dat WC WF CH SO P. exists 0%nat. intros n _. left. cbn [decType decBase].
    now apply dec_int.
  - intros cenv pos fs x w tail B L ctxs k dat WC WF CH SO P. exists 0%nat. intros n _. left. cbn [decType decBase].
    apply dec_int; auto. discriminate.
  - intros cenv pos fs s tail NI ctxs k dat WC WF CH SO (L & M & _). exists 0%nat. intros n _. left. cbn [decType decBase]. unfold decNul.
    rewrite <- app_assoc in *. cbn [app] in *. rewrite indexByte_none by (auto; lia). rewrite Z.add_0_l.
    rewrite !blen_app, blen_cons in *. pose proof (blen_nonneg s). pose proof (blen_nonneg tail).
    cbn zeta. destruct (Z.ltb_spec (blen s) 0); [lia|]. unfold maxData in M. rewrite s64_id by (unfold two63; lia).
    replace ((blen s + 1 <? 0) || (blen s + (1 + blen tail) <? blen s + 1)) with false by lia.
    rewrite firstn_app_all. replace (s ++ 0 :: tail) with ((s ++ [0]) ++ tail) by (now rewrite <- app_assoc).
    replace (blen s + 1) with (blen (s ++ [0])) by (now rewrite blen_app). now rewrite skipn_app_all.
  - intros cenv pos fs tail ctxs k dat WC WF CH SO (L & M & P). exists 0%nat. intros n _. left. cbn [decType decBase app].
    destruct P as [P|[_ P]]; [discriminate|]. cbn [app] in P, L. rewrite <- P. unfold maxData in M.
    pose proof (blen_nonneg tail). rewrite s64_id by (unfold two63; lia). reflexivity.
  - (* struct *)
    intros cenv pos fs nm s cenv' fs' w tail HS HE HP _ IH ctxs k dat WC WF CH SO (L & M & P).
    destruct (Hstr _ _ HS HE) as (CS & PT & SD).
    destruct (structDecl_ok camel r s CS) as [ds Hds]. apply passes_args in HP as (args & HA & ->).
    destruct (IH (scontexts s) [] (w ++ tail)) as (_ & n0 & H0); auto.
    { eapply ctxs_word; eauto. }
    { apply blank_word. }
    { now apply checked_members with (camel := camel). }
    { unfold checkStruct in CS. rewrite !andb_true_iff in CS. tauto. }
    { split; [lia|]. split; [lia|]. right. split; auto. lia. }
    exists (S n0). intros [|n] Hn; [lia|]. cbn [decType decBase decCall]. rewrite HS, Hds, HA. cbn [bind].
    rewrite (zeros_blank camel r s ds Hds). eapply gives_bind; [apply H0; lia|]. apply gives_eq.
  - intros cenv pos fs b i k0 vs w tail Hi Hk _ IH ctxs k dat WC WF CH SO P. cbn [checkType] in CH. apply andb_true_iff in CH as [CB _].
    destruct (IH ctxs dat WC WF CB) as [n0 H0]; [cbn in P; auto|]. exists n0. intros n Hn. cbn [decType].
    apply integerOf_value in Hi. rewrite Hi. cbn [bind]. rewrite <- Hk. eapply gives_bind; [apply H0; lia|]. apply gives_eq.
  - intros cenv pos fs b f vs w tail HR EN IH ctxs k dat WC WF CH SO P. cbn [checkType] in CH. apply andb_true_iff in CH as [CB _].
    destruct (IH ctxs dat WC WF CB) as [n0 H0]; [cbn in P; auto|]. exists n0. intros n Hn. cbn [decType].
    apply refVal_refers in HR. rewrite HR. cbn [bind].
    destruct (tipe_ok camel r b ctxs k) as [g Hg]; [now apply (base_type ctxs k b (decCall camel r n) n cenv 0 fs [])|].
    rewrite Hg. cbn [bind]. pose proof (gsize_base ctxs b g CB Hg) as GS.
    destruct SO as [LO|SO].
    { apply (word_ref camel cenv fs f _ WF WC) in HR. destruct ((s64 (blen vs) <? 0) || (maxAlloc <? s64 (blen vs) * gsize g)) eqn:EA.
      - right. split; auto. eexists. reflexivity.
      - apply orb_false_iff in EA as [EA _]. apply Z.ltb_ge in EA. rewrite (s64_word _ HR EA). eapply gives_bind; [apply H0; lia|]. apply gives_eq. }
    assert (LV : blen vs <= blen w). { eapply encN_eats; [|exact EN]. intros. eapply (proj1 eats_enc b SO); eauto. }
    destruct P as (L & M & _). rewrite blen_app in L. unfold maxData in M. pose proof (blen_nonneg tail). pose proof (blen_nonneg vs).
    rewrite s64_id by (unfold two63; lia). unfold maxAlloc.
    replace ((blen vs <? 0) || (281474976710656 <? blen vs * gsize g)) with false.
    2:{ symmetry. apply orb_false_iff. split; [lia|]. apply Z.ltb_ge. nia. }
    eapply gives_bind; [apply H0; lia|]. apply gives_eq.
  - intros cenv pos fs b vs w _ IH ctxs k dat WC WF CH SO P. cbn [checkType] in CH. rewrite app_nil_r in P.
    destruct (IH ctxs dat WC WF CH) as [n0 H0]; [cbn in P; auto|]. exists n0. intros n Hn. cbn [decType]. rewrite app_nil_r.
    eapply gives_bind; [apply H0; lia|]. apply gives_eq.
  - intros cenv pos fs b i k0 vs w tail Hi Hk _ IH ctxs k dat WC WF CH SO P. cbn [checkType] in CH. apply andb_true_iff in CH as [CB _].
    destruct P as (L & M & P). rewrite blen_app in L. pose proof (blen_nonneg tail).
    destruct (IH ctxs dat WC WF CB) as [n0 H0].
    { split; [lia|]. split; auto. left. cbn in P. tauto. }
    exists n0. intros n Hn. cbn [decType]. apply integerOf_value in Hi. rewrite Hi. cbn [bind]. rewrite <- Hk.
    apply dec_leaving; [unfold two63, maxData in *; lia|]. eapply gives_bind; [apply H0; lia|]. apply gives_eq.
  - intros cenv pos fs b tail ctxs dat WC WF CB P. exists 0%nat. intros n m _ _. left. destruct m; reflexivity.
  - intros cenv pos fs b v vs w1 w2 tail _ IH1 _ IH2 ctxs dat WC WF CB P.
    destruct (base_type ctxs [] b (fun _ _ _ => OutOfFuel) 0 cenv 0 fs [] CB) as (CT & _ & SO & PM).
    rewrite <- app_assoc in P |- *.
    destruct (IH1 ctxs [] dat WC WF CT SO) as [n1 H1]; [now rewrite PM|].
    destruct (IH2 ctxs dat WC WF CB) as [n2 H2]; [now apply cpos_next in P|].
    exists (S (n1 + n2)). intros n m Hn Hm. destruct m as [|m]; [lia|]. cbn [decFor]. rewrite blen_cons.
    pose proof (blen_nonneg vs). destruct (Z.leb_spec (1 + blen vs) 0); [lia|].
    specialize (H1 n ltac:(lia)). rewrite (proj1 (proj2 (base_type ctxs [] b _ _ _ _ _ _ CB))) in H1.
    eapply gives_bind; [exact H1|]. cbn beta iota.
    replace (1 + blen vs - 1) with (blen vs) by lia. eapply gives_bind; [apply H2; lia|]. apply gives_eq.
  - intros cenv pos fs b ctxs dat WC WF CB P. exists 0%nat. intros n m _ _. left. destruct m; reflexivity.
  - intros cenv pos fs b v vs w1 w2 NE _ IH1 _ IH2 ctxs dat WC WF CB P.
    destruct (base_type ctxs [] b (fun _ _ _ => OutOfFuel) 0 cenv 0 fs [] CB) as (CT & _ & SO & PM).
    destruct (IH1 ctxs [] dat WC WF CT SO) as [n1 H1]; [now rewrite PM|].
    destruct (IH2 ctxs dat WC WF CB) as [n2 H2]; [now apply cpos_next in P|].
    exists (S (n1 + n2)). intros n m Hn Hm. destruct m as [|m]; [lia|]. cbn [decWhile].
    destruct (Z.leb_spec (blen (w1 ++ w2)) 0) as [LE|LE].
    { exfalso. apply NE. apply blen0. pose proof (blen_nonneg (w1 ++ w2)). lia. }
    specialize (H1 n ltac:(lia)). rewrite (proj1 (proj2 (base_type ctxs [] b _ _ _ _ _ _ CB))) in H1.
    eapply gives_bind; [exact H1|]. cbn beta iota. eapply gives_bind; [apply H2; lia|]. apply gives_eq.
  - intros cenv pos nm t fs v w tail ET IH ctxs k dat WC WF CH DF SO P. cbn [checkMember] in CH.
    split; [apply wordf_assign; auto; eapply enc_word; eauto|].
    destruct (IH ctxs k dat WC WF CH) as [n0 H0]; auto. { apply (SO nm). cbn. auto. }
    exists n0. intros n Hn. cbn [decMember]. eapply gives_bind; [apply H0; lia|]. apply gives_eq.
  - intros cenv pos u tag cs x fs w tail fs' HX _ IH ctxs k dat WC WF CH DF SO P.
    destruct (union_cases _ _ _ _ _ _ _ _ _ _ CH DF SO P) as [OD HC]. destruct (IH ctxs k dat WC WF OD (HC tail eq_refl)) as (W' & n0 & H0).
    split; auto. exists n0. intros n Hn. rewrite decMember_union. cbn zeta. apply refVal_refers in HX. rewrite HX. cbn [bind]. now apply H0.
  - intros cenv pos u tag f cs x fs w tail fs' HX HF _ IH ctxs k dat WC WF CH DF SO P.
    destruct (union_cases _ _ _ _ _ _ _ _ _ _ CH DF SO P) as [OD HC]. destruct (IH ctxs k dat WC WF OD (HC [] eq_refl)) as (W' & n0 & H0).
    split; auto. exists n0. intros n Hn. rewrite decMember_union. cbn zeta. cbn [decConstr].
    apply refVal_refers in HX, HF. rewrite HF, HX. cbn [bind]. rewrite app_nil_r in H0. destruct P as (L & M & _).
    rewrite blen_app in L. pose proof (blen_nonneg tail). apply dec_within; [unfold two63, maxData in *; lia|]. now apply H0.
  - intros cenv pos u tag i z cs x fs w tail fs' HX HI HK _ IH ctxs k dat WC WF CH DF SO P.
    destruct (union_cases _ _ _ _ _ _ _ _ _ _ CH DF SO P) as [OD HC]. destruct (IH ctxs k dat WC WF OD (HC [] eq_refl)) as (W' & n0 & H0).
    split; auto. exists n0. intros n Hn. rewrite decMember_union. cbn zeta. cbn [decConstr].
    apply refVal_refers in HX. apply integerOf_value in HI. rewrite HX, HI. cbn [bind]. rewrite app_nil_r in H0. destruct P as (L & M & _).
    rewrite blen_app in L. pose proof (blen_nonneg tail). rewrite <- HK. apply dec_leaving; [unfold two63, maxData in *; lia|]. now apply H0.
  - intros cenv pos fs ctxs k dat WC WF CH DF SO P. split; auto. exists 0%nat. left. reflexivity.
  - intros cenv pos fs w ctxs k dat WC WF CH DF SO P. split; auto. exists 0%nat. left. reflexivity.
  - intros cenv pos cs x c fs w tail fs' TK _ IH ctxs k dat WC WF OD H.
    assert (I : In c cs) by (destruct TK as [(p & q & -> & _)|(_ & I & _)]; auto; apply in_or_app; cbn; auto).
    destruct (H _ I) as (A1 & A2 & A3 & A4). destruct (IH ctxs k dat WC WF A1 A2 A3 A4) as (W' & n0 & H0). split; auto.
    exists n0. intros n Hn.
    destruct (pick_spec camel r (decCall camel r n) n cenv dat cs x fs (w ++ tail) cs [] eq_refl (Forall_nil _)) as [(c' & TK' & E)|[N _]].
    + rewrite E. assert (c' = c) by (eapply takes_unique; eauto). subst c'. now apply H0.
    + exfalso. apply (N _ TK).
  - intros cenv pos cs x fs tail LE N ctxs k dat WC WF OD H. split; auto. exists 0%nat. intros n Hn. left.
    destruct (pick_spec camel r (decCall camel r n) n cenv dat cs x fs tail cs [] eq_refl (Forall_nil _)) as [(c' & TK' & E)|[_ E]].
    + exfalso. apply (N _ TK').
    + exact E.
  - intros cenv pos fs tail ctxs k dat WC WF CH DF SO P. split; auto. exists 0%nat. left. reflexivity.
  - intros cenv pos m ms fs w1 w2 tail fs1 fs2 _ IH1 _ IH2 ctxs k dat WC WF CH DF SO P. cbn [checkMembers forallb flat_map] in *.
    apply andb_true_iff in CH as [CH1 CH2]. apply andb_true_iff in DF as [DF1 DF2]. rewrite <- app_assoc in P |- *.
    destruct (IH1 ctxs k dat WC WF CH1 DF1) as (W1 & n1 & H1).
    { intros nm t I. apply (SO nm). apply in_or_app. auto. }
    { destruct P as (L & M & P). split; auto. split; auto. rewrite !andb_true_iff in P. tauto. }
    destruct (IH2 ctxs (addKnown k m) dat WC W1 CH2 DF2) as (W2 & n2 & H2).
    { intros nm t I. apply (SO nm). apply in_or_app. auto. }
    { apply cpos_next in P. destruct P as (L & M & P). split; auto. split; auto. rewrite !andb_true_iff in P. tauto. }
    split; auto. exists (n1 + n2)%nat. intros n Hn. cbn [decMembers]. eapply gives_bind; [apply H1; lia|]. apply H2. lia.
Qed.

(** x.Parse accepts every encoding. *)
Theorem struct_complete : forall cenv s fs w tail fs', checkStruct camel r s = true -> forallb ptrM (members_of s) = true ->
  roomy (flat_map allFields (members_of s)) -> blen (w ++ tail) <= maxData -> wordc cenv -> wordf fs ->
  encStruct camel cv sv lenient cenv s fs w tail fs' ->
  exists n0, forall n, (n0 <= n)%nat -> gives (decStruct camel r n s fs cenv (w ++ tail)) (Ok (fs', tail)).
Proof.
  intros cenv s fs w tail fs' CS PT SO L WC WF E.
  destruct (proj2 (proj2 (proj2 (proj2 (proj2 (complete cenv))))) _ _ _ _ _ _ E (scontexts s) [] (w ++ tail)) as (_ & n0 & H0); auto.
  - now apply checked_members with (camel := camel).
  - unfold checkStruct in CS. rewrite !andb_true_iff in CS. tauto.
  - split; [lia|]. split; [lia|]. right. split; auto. lia.
  - exists (S n0). intros [|n] Hn; [lia|]. cbn [decStruct]. apply H0. lia.
Qed.
End Fix.
