(** Checked declarations never get the decoder stuck, and they make it panic
    only where a field that can hold more than 32 bits is used as a length. *)
From Coq Require Import ZArith String List Bool Lia ZifyBool ZifyNat.
From Verif Require Import Base Ast IntervalsModel InspectModel InspectSpec BranchProofs GoLang GenModel GenDecode GenCheck
  GenSim GenSimBody GenSimProg WireSpec WireProofs WireComplete GenTerm.
Import ListNotations.
Open Scope string_scope.
Open Scope list_scope.
Open Scope Z_scope.
Ltac Zify.zify_post_hook ::= Z.div_mod_to_equations.

(** References used as lengths: array counts and union lengths. *)
Definition lengthRefT (t : type) : list idref :=
  match t with TVar _ (Some (LRef f)) => [f] | _ => [] end.
Fixpoint lengthRefs (m : member) : list idref :=
  match m with
  | MField _ t => lengthRefT t
  | MUnion _ _ len cs =>
      (match len with Some (LRef f) => [f] | _ => [] end) ++
      flat_map (fun c => match c with UCase _ ms => flat_map lengthRefs ms end) cs
  | _ => []
  end.

Section Fix.
Variable camel : string -> string.
Variable r : resolver.
Notation cv := (Constant r).
Notation sv := (Struct r).

(** An integer field has at most so many bits, or its constraint allows only such numbers. *)
Definition below (bits sz : Z) (cst : option intlist) : Prop :=
  sz <= bits \/ exists l, cst = Some l /\ forall z, in_list cv l z -> z < 2 ^ bits.
(** Lengths come from fields of at most 32 bits. *)
Definition narrow (s : struct) : Prop :=
  forall f, In f (flat_map lengthRefs (members_of s)) ->
    (rscope f = "" -> forall sz cst, In (rname f, TInt sz cst) (flat_map allFields (members_of s)) -> below 32 sz cst) /\
    (rscope f <> "" -> forall c sz cst, Context r (rscope f) = Some c -> In (rname f, TInt sz cst) (cmembers c) -> sz <= 32).

Variable nar : Prop.
(** What an outcome may be. *)
Definition sat {A} (P : A -> Prop) (o : outcome A) : Prop :=
  match o with
  | Ok a => P a
  | Panic m => m <> "ill-typed" /\ ~ nar
  | _ => True
  end.
Lemma sat_bind : forall {A B} (P : A -> Prop) (Q : B -> Prop) o (g : A -> outcome B),
  sat P o -> (forall a, P a -> sat Q (g a)) -> sat Q (bind o g).
Proof. intros A B P Q [a|e|m|] g H K; cbn in *; auto. Qed.
Lemma sat_bindE : forall {A B} (P : A -> Prop) (Q : B -> Prop) o (g : A -> outcome B),
  sat P o -> (forall a, o = Ok a -> P a -> sat Q (g a)) -> sat Q (bind o g).
Proof. intros A B P Q [a|e|m|] g H K; cbn in *; auto. Qed.
Lemma sat_weak : forall {A} (P Q : A -> Prop) o, sat P o -> (forall a, P a -> Q a) -> sat Q o.
Proof. intros A P Q [a|e|m|] H K; cbn in *; auto. Qed.

Definition okc (c : bytes) : Prop := all_bytes c /\ blen c < two63.
Lemma okc_skip : forall k c, okc c -> okc (skipn k c).
Proof. intros k c [A L]. split; [now apply all_bytes_skipn|]. unfold blen in *. rewrite skipn_length. lia. Qed.
Lemma okc_first : forall k c, okc c -> okc (firstn k c).
Proof. intros k c [A L]. split; [now apply all_bytes_firstn|]. unfold blen in *. rewrite firstn_length. lia. Qed.

(** Contexts hold integers of the declared widths. *)
Definition tctx (x : string) (v : value) : Prop :=
  exists ty cf, v = VStruct ty cf /\ forall c, Context r x = Some c ->
    forall n sz cst, findIntField n (cmembers c) = Ok (sz, cst) ->
      exists z, alookup (camel n) cf = Some (VInt z) /\ 0 <= z < 2 ^ sz.
Definition tctxs (ctxs : list string) (cenv : amap value) : Prop :=
  forall x, In x ctxs -> exists v, alookup x cenv = Some v /\ tctx x v.

Section Body.
Variable dcall : string -> amap value -> bytes -> outcome (value * bytes).
Variable n : nat.
Variable ctxs : list string.
Variable cenv : amap value.
Variable dat : bytes.
Notation d := (blen dat).
Variable flds : list (string * type).
Variable lrefs : list idref.
Hypothesis Hcx : tctxs ctxs cenv.
Hypothesis Hnar : nar -> forall f, In f lrefs ->
    (rscope f = "" -> forall sz cst, In (rname f, TInt sz cst) flds -> below 32 sz cst) /\
    (rscope f <> "" -> forall c sz cst, Context r (rscope f) = Some c -> In (rname f, TInt sz cst) (cmembers c) -> sz <= 32).
Hypothesis Hnd : NoDup (map (fun f => camel (fst f)) flds).
Hypothesis Hcall : forall nm s c, Struct r nm = Some s -> Extern s = false ->
  (forall x, In x (scontexts s) -> In x ctxs) -> okc c ->
  sat (fun vc => okc (snd vc)) (dcall nm cenv c).

Definition tint (t : type) (v : value) : Prop :=
  forall sz cst, t = TInt sz cst -> exists x, v = VInt x /\ 0 <= x < 2 ^ sz.

Lemma int_safe : forall sz cst c, goodSize sz = true -> okc c ->
  sat (fun vc => okc (snd vc) /\ exists x, fst vc = VInt x /\ 0 <= x < 2 ^ sz) (decInt r sz cst c).
Proof.
  intros sz cst c G [A L]. unfold decInt. destruct (Z.ltb_spec (blen c) (sz / 8)); [exact I|].
  match goal with |- context [if ?b then _ else _] => destruct b end; [|exact I]. cbn. split; [apply okc_skip; split; auto|].
  eexists. split; [reflexivity|].
  assert (S8 : 0 <= sz / 8) by (unfold goodSize in G; lia).
  pose proof (bigEndian_bound _ _ (bigEndian_be _ (all_bytes_firstn (Z.to_nat (sz / 8)) _ A))) as B.
  rewrite firstn_blen in B by lia. replace (8 * (sz / 8)) with sz in B; auto.
  unfold goodSize in G. lia.
Qed.

(** An integer that was read is an allowed one. *)
Definition allowed (cst : option intlist) (x : Z) : Prop := forall l, cst = Some l -> in_list cv l x.
Lemma int_allowed : forall sz cst c x c', decInt r sz cst c = Ok (VInt x, c') -> allowed cst x.
Proof.
  intros sz cst c x c' H l ->. unfold decInt in H. destruct (blen c <? sz / 8); [discriminate|].
  destruct (inList r _ l) eqn:E; [|discriminate]. apply inList_spec in E. injection H as <- _. exact E.
Qed.
(** Names tell the types. *)
Lemma same_field : forall nm t t', In (nm, t) flds -> In (nm, t') flds -> t = t'.
Proof.
  revert Hnd. clear. induction flds as [|[a b] l IH]; intros N nm t t' I J; [destruct I|]. cbn [map fst] in N. inversion N as [|? ? NI ND]; subst.
  destruct I as [I|I]; destruct J as [J|J].
  - congruence.
  - injection I as -> ->. exfalso. apply NI. apply (in_map (fun f => camel (fst f)) l (nm, t') J).
  - injection J as -> ->. exfalso. apply NI. apply (in_map (fun f => camel (fst f)) l (nm, t) I).
  - eapply IH; eauto.
Qed.

Lemma base_safe : forall t c, checkBase r ctxs t = true -> okc c ->
  sat (fun vc => okc (snd vc) /\ tint t (fst vc)) (decBase r dcall cenv d t c).
Proof.
  intros [sz cst| | | |nm|b i|b o] c C K; try discriminate; cbn [decBase checkBase] in *.
  - eapply sat_weak; [apply int_safe; auto; unfold checkInt in C; apply andb_true_iff in C; tauto|]. intros [v c1] (O & x & E & B). split; auto.
    intros sz' cst' E'. injection E' as <- <-. eauto.
  - eapply sat_weak; [apply int_safe; auto|]. intros [v c1] (O & _). split; auto. discriminate.
  - cbn. split; auto. discriminate.
  - unfold decNul. destruct (indexByte_found c 0) as [[-> _]|(s & t & -> & NI & ->)]; [lia|exact I|].
    destruct K as [KA KL]. rewrite blen_app, blen_cons in *. pose proof (blen_nonneg s). pose proof (blen_nonneg t).
    destruct (Z.ltb_spec (0 + blen s) 0); [lia|]. rewrite s64_id by lia.
    destruct (Z.ltb_spec (0 + blen s + 1) 0); [lia|]. destruct (Z.ltb_spec (blen s + (1 + blen t)) (0 + blen s + 1)); [lia|].
    cbn. split; [|discriminate]. apply okc_skip. split; auto. rewrite blen_app, blen_cons. lia.
  - destruct (sv nm) as [s|] eqn:E; [|discriminate]. apply andb_true_iff in C as [C1 C2].
    eapply sat_weak; [eapply Hcall; eauto|].
    + now apply negb_true_iff in C1.
    + intros x Ix. rewrite forallb_forall in C2. specialize (C2 _ Ix). now apply memb_in in C2.
    + intros [v c1] O. split; auto. discriminate.
Qed.

Lemma for_safe : forall t, checkBase r ctxs t = true -> forall m k c, okc c ->
  sat (fun vc => okc (snd vc)) (decFor r dcall cenv d m t k c).
Proof.
  intros t C. induction m as [|m IH]; intros k c K; cbn [decFor]; destruct (k <=? 0); cbn; auto.
  eapply sat_bind; [apply base_safe; auto|]. intros [v c1] [O _].
  eapply sat_bind; [apply IH; auto|]. intros [vs c2] O2. exact O2.
Qed.
Lemma while_safe : forall t, checkBase r ctxs t = true -> forall m c, okc c ->
  sat (fun vc => okc (snd vc)) (decWhile r dcall cenv d m t c).
Proof.
  intros t C. induction m as [|m IH]; intros c K; cbn [decWhile]; destruct (blen c <=? 0); cbn; auto.
  eapply sat_bind; [apply base_safe; auto|]. intros [v c1] [O _].
  eapply sat_bind; [apply IH; auto|]. intros [vs c2] O2. exact O2.
Qed.

Lemma within_safe : forall {A} (P : A -> Prop) k c (body : bytes -> outcome (A * bytes)), okc c -> (nar -> 0 <= k) ->
  (forall c0, okc c0 -> sat (fun ac => P (fst ac)) (body c0)) ->
  sat (fun ac => P (fst ac) /\ okc (snd ac)) (decWithin k c body).
Proof.
  intros A P k c body K N B. unfold decWithin. destruct (blen c <? k); [exact I|].
  destruct (Z.ltb_spec k 0).
  - cbn. split; [discriminate|]. intros X. specialize (N X). lia.
  - eapply sat_bind; [apply B; now apply okc_first|]. intros [a c1] PA. cbn iota. destruct (0 <? blen c1); cbn; auto.
    split; auto. now apply okc_skip.
Qed.
Lemma leaving_safe : forall {A} (P : A -> Prop) k c (body : bytes -> outcome (A * bytes)), okc c -> 0 <= k ->
  (forall c0, okc c0 -> sat (fun ac => P (fst ac)) (body c0)) ->
  sat (fun ac => P (fst ac) /\ okc (snd ac)) (decLeaving k c body).
Proof.
  intros A P k c body K N B. unfold decLeaving. destruct (Z.ltb_spec k 0); [lia|].
  destruct (Z.ltb_spec (blen c) k); [exact I|]. destruct K as [KA KL]. apply within_safe; auto; [split; auto|].
  intros _. rewrite s64_id; lia.
Qed.

(** Fields parsed so far. *)
Definition tk (k : known) (fs : amap value) : Prop :=
  forall nm sz, In (nm, sz) k -> exists x, alookup (camel nm) fs = Some (VInt x) /\ 0 <= x < 2 ^ sz /\
    forall cst, In (nm, TInt sz cst) flds -> allowed cst x.
Definition kin (k : known) : Prop := forall nm sz, In (nm, sz) k -> exists cst, In (nm, TInt sz cst) flds.
Definition hasF (fs : amap value) : Prop := forall nm t, In (nm, t) flds -> exists v, alookup (camel nm) fs = Some v.

Lemma findIntField_in : forall nm l sz cst, findIntField nm l = Ok (sz, cst) -> In (nm, TInt sz cst) l.
Proof.
  intros nm. induction l as [|[f t] l IH]; intros sz cst H; [discriminate|]. cbn in H.
  destruct (String.eqb_spec f nm) as [->|]; [|right; auto]. destruct t; try discriminate. injection H as <- <-. now left.
Qed.

Lemma narrow_s64 : forall x sz, 0 <= x < 2 ^ sz -> sz <= 32 -> s64 x = x /\ 0 <= x < 4294967296.
Proof.
  intros x sz B L. assert (2 ^ sz <= 2 ^ 32) by (apply Z.pow_le_mono_r; lia). change (2 ^ 32) with 4294967296 in *.
  split; [|lia]. apply s64_id. unfold two63. lia.
Qed.
Lemma ref_safe : forall k fs f sz, refWidth r ctxs k f = Some sz -> tk k fs -> kin k ->
  exists x, refVal camel fs cenv f = Ok x /\ 0 <= x < 2 ^ sz /\ (In f lrefs -> nar -> s64 x = x /\ 0 <= x < 4294967296).
Proof.
  intros k fs f sz H T KI. unfold refWidth, refVal in *. destruct (String.eqb_spec (rscope f) "") as [E|E].
  - apply alookup_some_in in H. destruct (T _ _ H) as (x & Ex & B & AL). rewrite Ex. exists x. split; auto. split; auto.
    intros If X. destruct (KI _ _ H) as [cst Ic]. destruct (Hnar X f If) as [N _].
    destruct (N E sz cst Ic) as [LE|(l & -> & LE)]; [now apply (narrow_s64 x sz)|].
    specialize (LE x (AL _ Ic l eq_refl)). change (2 ^ 32) with 4294967296 in LE. split; [|lia]. apply s64_id. unfold two63. lia.
  - unfold ctxField in H. destruct (memb (rscope f) ctxs) eqn:M; [|discriminate]. apply memb_in in M.
    destruct (Context r (rscope f)) as [c|] eqn:EC; [|discriminate].
    destruct (findIntField (rname f) (cmembers c)) as [[sz' cst]| | |] eqn:EF; try discriminate. injection H as ->.
    destruct (Hcx _ M) as (v & Ev & ty & cf & -> & HT). destruct (HT _ EC _ _ _ EF) as (z & Ez & B).
    rewrite Ev. cbn [asFields bind]. rewrite Ez. exists z. split; auto. split; auto.
    intros If X. destruct (Hnar X f If) as [_ N]. apply (narrow_s64 z sz); auto. eapply N; eauto. apply findIntField_in. eauto.
Qed.

Lemma count_ok : forall i, goodCount r i = true -> exists k, integerOf r i = Ok k /\ 0 <= k < two63.
Proof.
  intros i H. unfold goodCount in H. destruct (int_value cv i) as [z|] eqn:E; [|discriminate].
  exists z. split; [now apply integerOf_value|lia].
Qed.

Lemma elem_size : forall b g, checkBase r ctxs b = true -> tipe camel r b = Ok g -> 0 <= gsize g <= 16.
Proof.
  intros [sz cst| | | |nm|b i|b o] g C H; try discriminate; cbn [tipe] in H; injection H as <-; cbn [gsize]; try lia.
  cbn [checkBase] in C. unfold checkInt, goodSize in C. lia.
Qed.

Lemma type_safe : forall t k fs c, checkType r ctxs k t = true -> (forall f, In f (lengthRefT t) -> In f lrefs) ->
  tk k fs -> kin k -> okc c ->
  sat (fun vc => tint t (fst vc) /\ okc (snd vc)) (decType camel r dcall n cenv d fs t c).
Proof.
  intros t k fs c C LR T KI K.
  destruct t as [sz cst| | | |nm|b i|b [[f|i]|]]; cbn [checkType decType] in *;
    try (eapply sat_weak; [apply base_safe; auto|]; intros [v c1] [O1 O2]; split; auto; fail).
  - apply andb_true_iff in C as [C1 C2]. destruct (count_ok i C2) as (kk & -> & B). cbn [bind].
    eapply sat_bind; [apply for_safe; auto|]. intros [vs c1] O. split; [discriminate|auto].
  - apply andb_true_iff in C as [C1 C2]. destruct (refWidth r ctxs k f) as [sz|] eqn:RW; [|discriminate].
    destruct (ref_safe _ _ _ _ RW T KI) as (x & -> & B & N). cbn [bind].
    destruct (tipe_ok camel r b ctxs k) as [g Hg]; [now apply (base_type camel r False ctxs k b dcall n cenv 0 fs [])|].
    rewrite Hg. cbn [bind]. pose proof (elem_size b g C1 Hg) as GS.
    destruct ((s64 x <? 0) || (maxAlloc <? s64 x * gsize g)) eqn:EM.
    + cbn. split; [discriminate|]. intros X. destruct (N (LR _ (or_introl eq_refl)) X) as [E R].
      rewrite E in EM. apply orb_true_iff in EM as [EM|EM]; [lia|]. unfold maxAlloc in EM. apply Z.ltb_lt in EM. nia.
    + eapply sat_bind; [apply for_safe; auto|]. intros [vs c1] O. split; [discriminate|auto].
  - apply andb_true_iff in C as [C1 C2]. destruct (count_ok i C2) as (kk & -> & B). cbn [bind].
    eapply leaving_safe; auto; [lia|]. intros c0 K0. eapply sat_bind; [apply while_safe; auto|].
    intros [vs c1] O. cbn. discriminate.
  - eapply sat_bind; [apply while_safe; auto|]. intros [vs c1] O. split; [discriminate|auto].
Qed.

Definition post (k : known) (r : amap value * bytes) : Prop := tk k (fst r) /\ hasF (fst r) /\ okc (snd r).
Definition msafe (m : member) : Prop := forall k fs c, checkMember r ctxs k m = true -> apart camel k (fieldNames m) ->
  NoDup (map camel (fieldNames m)) -> incl (allFields m) flds -> incl (lengthRefs m) lrefs -> kin k -> tk k fs -> hasF fs ->
  okc c -> sat (post (addKnown k m)) (decMember camel r dcall n cenv d m fs c).

Lemma hasF_assign : forall f v fs, hasF fs -> hasF (assign f v fs).
Proof.
  intros f v fs H nm t Ix. destruct (H _ _ Ix) as [w W]. destruct (String.eqb_spec (camel nm) f) as [<-|E].
  - exists v. eapply alookup_assign_same; eauto.
  - exists w. now rewrite alookup_assign_other.
Qed.
Lemma addKnown_incl : forall k m, incl k (addKnown k m).
Proof. intros k [nm []| | | |] x Ix; cbn; auto. Qed.

Lemma members_safe : forall ms, Forall msafe ms -> forall k fs c, checkMembers r ctxs k ms = true ->
  apart camel k (flat_map fieldNames ms) -> NoDup (map camel (flat_map fieldNames ms)) ->
  incl (flat_map allFields ms) flds -> incl (flat_map lengthRefs ms) lrefs -> kin k -> tk k fs -> hasF fs ->
  okc c -> sat (post k) (decMembers camel r dcall n cenv d ms fs c).
Proof.
  induction ms as [|m ms IH]; intros F k fs c C A ND IF IL KI T HF K; cbn [decMembers].
  - cbn. split; auto.
  - cbn [checkMembers flat_map] in *. apply andb_true_iff in C as [C1 C2]. rewrite map_app in ND.
    eapply sat_bind.
    + apply (Forall_inv F k); auto.
      * intros x y Hx Hy. apply A; auto. apply in_or_app; auto.
      * eapply NoDup_app_l; eauto.
      * intros x Hx. apply IF, in_or_app. auto.
      * intros x Hx. apply IL, in_or_app. auto.
    + intros [fs1 c1] (T1 & HF1 & K1). cbn [fst snd] in *.
      eapply sat_weak; [apply (IH (Forall_inv_tail F) (addKnown k m)); auto|].
      * intros x y Hx Hy. apply addKnown_names in Hx. destruct Hx as [Hx|Hx].
        -- apply A; auto. apply in_or_app; auto.
        -- intros E. apply (NoDup_app_disj _ _ (camel x) ND); [now apply in_map|rewrite E; now apply in_map].
      * eapply NoDup_app_r; eauto.
      * intros x Hx. apply IF, in_or_app. auto.
      * intros x Hx. apply IL, in_or_app. auto.
      * intros nm sz Ix. destruct m as [nm' t| | | |]; cbn [addKnown] in Ix; auto. destruct t; auto.
        destruct Ix as [E|Ix]; auto. injection E as <- <-. eexists. apply IF. cbn. eauto.
      * intros [fs2 c2] (T2 & HF2 & K2). split; [|auto]. intros nm sz Ix. apply T2. now apply addKnown_incl.
Qed.

Lemma member_safe : forall m, msafe m.
Proof.
  induction m as [nm t|u tag len cs IH| | |] using member_ind'; intros k fs c C A ND IF IL KI T HF K.
  - cbn [checkMember decMember addKnown fieldNames allFields lengthRefs] in *.
    eapply sat_bindE; [eapply type_safe; eauto|].
    intros [v c1] EQ [TI K1]. cbn [fst snd] in *. cbn. split; [|split; [now apply hasF_assign|auto]]. cbn [fst].
    destruct (HF nm t) as [w W]; [apply IF; now left|].
    assert (T' : tk k (assign (camel nm) v fs)).
    { intros nm' sz Ix. destruct (T _ _ Ix) as (x & Ex & B). exists x. split; [|exact B]. rewrite alookup_assign_other; auto.
      apply A; [|now left]. apply (in_map fst _ _ Ix). }
    destruct t; auto. intros nm' sz' [E|Ix]; auto. injection E as <- <-. destruct (TI _ _ eq_refl) as (x & -> & B).
    exists x. split; [eapply alookup_assign_same; eauto|]. split; auto. intros cst' J. cbn [decType decBase] in EQ.
    assert (X : In (nm, TInt size cst) flds) by (apply IF; now left). pose proof (same_field _ _ _ X J) as E. injection E as <-.
    eapply int_allowed; eauto.
  - rewrite decMember_union. cbn zeta. destruct (check_union _ _ _ _ _ _ _ C) as ((sz & RW) & CL & CC).
    cbn [addKnown fieldNames allFields lengthRefs] in *.
    assert (B : forall c0, okc c0 -> sat (post k) (x <- refVal camel fs cenv tag ;; decPick camel r dcall n cenv dat cs x cs fs c0)).
    { intros c0 K0. destruct (ref_safe _ _ _ _ RW T KI) as (x & -> & _). cbn [bind]. rewrite decPick_choice.
      destruct (choice r x cs cs) as [ms|] eqn:CH; [|cbn; split; auto].
      destruct (choice_in _ _ _ _ CH) as [l Ix]. destruct (CC _ Ix) as [_ CM]. cbn [ucase_members] in CM.
      rewrite Forall_forall in IH. apply members_safe; auto.
      - exact (IH _ Ix).
      - intros a b Ha Hb. apply A; auto. apply in_flat_map. exists (UCase l ms). auto.
      - clear - ND Ix.
        assert (X : map camel (flat_map (fun c => match c with UCase _ ms => flat_map fieldNames ms end) cs) =
                    flat_map (fun c => map camel (match c with UCase _ ms => flat_map fieldNames ms end)) cs).
        { clear. induction cs; auto. cbn. now rewrite map_app, IHcs. }
        rewrite X in ND. apply (NoDup_flat_map _ _ _ ND Ix).
      - intros a Ha. apply IF. apply in_flat_map. exists (UCase l ms). auto.
      - intros a Ha. apply IL. apply in_or_app. right. apply in_flat_map. exists (UCase l ms). auto. }
    assert (B' : forall c0, okc c0 -> sat (fun ac => tk k (fst ac) /\ hasF (fst ac)) (x <- refVal camel fs cenv tag ;; decPick camel r dcall n cenv dat cs x cs fs c0)).
    { intros c0 K0. eapply sat_weak; [apply B; auto|]. intros [fs1 c1] (P1 & P2 & _). auto. }
    destruct len as [[f|i]|]; cbn [decConstr]; auto.
    + destruct CL as (sz' & RW'). destruct (ref_safe _ _ _ _ RW' T KI) as (x & -> & BX & N). cbn [bind].
      eapply sat_weak; [apply (within_safe (fun a => tk k a /\ hasF a)); auto|].
      * intros X. destruct (N (IL _ (or_introl eq_refl)) X) as [-> R]. lia.
      * intros [fs1 c1] [[P1 P2] P3]. split; auto.
    + destruct (count_ok i CL) as (kk & -> & BK). cbn [bind].
      eapply sat_weak; [apply (leaving_safe (fun a => tk k a /\ hasF a)); auto; lia|].
      intros [fs1 c1] [[P1 P2] P3]. split; auto.
  - cbn [decMember]. destruct (0 <? blen c); cbn; auto. split; auto.
  - exact I.
  - cbn. split; auto. split; auto. split; [constructor|]. unfold blen, two63. cbn. lia.
Qed.
End Body.

Lemma ctxArgs_typed : forall ctxs cenv ns, tctxs ctxs cenv -> (forall x, In x ns -> In x ctxs) ->
  exists args, ctxArgs cenv ns = Ok args /\ tctxs ns (combine ns args).
Proof.
  intros ctxs cenv ns T. unfold ctxArgs. induction ns as [|x ns IH]; intros I; cbn [mapM].
  - exists []. split; auto. intros x [].
  - destruct (T x) as (v & Ev & TV); [apply I; now left|]. rewrite Ev. cbn [bind].
    destruct IH as (args & -> & TA); [intros y Hy; apply I; now right|]. cbn [bind]. exists (v :: args). split; auto.
    intros y Hy. cbn [combine alookup]. destruct (String.eqb_spec y x) as [->|N]; [eauto|].
    destruct Hy as [->|Hy]; [congruence|]. auto.
Qed.

Lemma blank_hasF : forall s, hasF (flat_map allFields (members_of s)) (blank camel cv s).
Proof.
  intros s nm t I. unfold blank. induction (flat_map allFields (members_of s)) as [|[a b] l IH]; [destruct I|].
  cbn [map alookup fst snd]. destruct (String.eqb_spec (camel nm) (camel a)); [eauto|]. destruct I as [E|I]; auto. congruence.
Qed.

Hypothesis Hstr : forall nm s, Struct r nm = Some s -> Extern s = false ->
  checkStruct camel r s = true /\ (nar -> narrow s).

Lemma struct_safe0 : forall dcall n s cenv fs c, checkStruct camel r s = true -> (nar -> narrow s) ->
  tctxs (scontexts s) cenv -> hasF (flat_map allFields (members_of s)) fs -> okc c ->
  (forall nm s' c, Struct r nm = Some s' -> Extern s' = false ->
     (forall x, In x (scontexts s') -> In x (scontexts s)) -> okc c -> sat (fun vc => okc (snd vc)) (dcall nm cenv c)) ->
  sat (fun r => hasF (flat_map allFields (members_of s)) (fst r) /\ okc (snd r))
      (decMembers camel r dcall n cenv (blen c) (members_of s) fs c).
Proof.
  intros dcall n s cenv fs c CS NA T HF K HC. pose proof (checked_members camel r s CS) as CM.
  assert (ND : NoDup (map camel (flat_map fieldNames (members_of s)))).
  { unfold checkStruct in CS. apply andb_true_iff in CS as [CS _]. apply andb_true_iff in CS as [CS _].
    apply andb_true_iff in CS as [_ CS]. now apply nodupb_NoDup. }
  assert (ND' : NoDup (map (fun f => camel (fst f)) (flat_map allFields (members_of s)))).
  { rewrite fieldNames_list, map_map in ND. exact ND. }
  eapply sat_weak.
  - apply (members_safe dcall n (scontexts s) cenv c (flat_map allFields (members_of s)) (flat_map lengthRefs (members_of s))) with (k := []); auto.
    + apply Forall_forall. intros m _. apply member_safe; auto.
    + intros x y [].
    + intros x; auto.
    + intros x; auto.
    + intros x y [].
    + intros x y [].
  - intros [fs1 c1] (_ & H1 & H2). auto.
Qed.

Lemma call_safe : forall m nm s ctxs cenv c, Struct r nm = Some s -> Extern s = false -> tctxs ctxs cenv ->
  (forall x, In x (scontexts s) -> In x ctxs) -> okc c -> sat (fun vc => okc (snd vc)) (decCall camel r m nm cenv c).
Proof.
  induction m as [|m IH]; intros nm s ctxs cenv c HS HE T I K; cbn [decCall]; rewrite HS;
    destruct (Hstr _ _ HS HE) as [CS NA]; destruct (structDecl_ok camel r s CS) as [ds Hds]; rewrite Hds; cbn [bind];
    destruct (ctxArgs_typed ctxs cenv (scontexts s) T I) as (args & -> & TA); cbn [bind]; [exact Logic.I|].
  eapply sat_bind.
  - apply struct_safe0; auto.
    + rewrite (zeros_blank camel r s ds Hds). apply blank_hasF.
    + intros nm' s' c' HS' HE' I' K'. eapply IH; eauto.
  - intros [fs1 c1] [_ O]. exact O.
Qed.

Theorem struct_safe : forall m s cenv fs c, checkStruct camel r s = true -> (nar -> narrow s) ->
  tctxs (scontexts s) cenv -> hasF (flat_map allFields (members_of s)) fs -> okc c ->
  sat (fun r => hasF (flat_map allFields (members_of s)) (fst r) /\ okc (snd r)) (decStruct camel r m s fs cenv c).
Proof.
  intros [|m] s cenv fs c CS NA T HF K; cbn [decStruct]; [exact I|]. apply struct_safe0; auto.
  intros. eapply call_safe; eauto.
Qed.
End Fix.
