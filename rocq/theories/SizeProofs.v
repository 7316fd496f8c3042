(** What a parser takes is in the span of its declaration. *)
From Coq Require Import ZArith String List Bool Lia.
From Coq Require Import ZifyBool ZifyNat.
From Verif Require Import Base Ast IntervalsModel InspectModel InspectSpec InspectProofs GoLang GenModel GenDecode GenCheck
  GenSim GenSimBody GenSimProg GenTerm WireSpec WireProofs WireComplete PackageSpec PackageProofs PackageFacts GenSafe CostSpec CostDec CostBody CostInv CostProg SizeSpec.
Import ListNotations.
Open Scope string_scope.
Open Scope list_scope.
Open Scope Z_scope.

(* ---------- spans ---------- *)

Lemma within_nothing : within nothing 0.
Proof. exists 0, (Some 0). split; auto. split; [lia|]. intros x E. injection E as <-. lia. Qed.
Lemma within_anything : forall n, 0 <= n -> within anything n.
Proof. intros n H. exists 0, None. split; auto. split; auto. discriminate. Qed.
Lemma within_exactly : forall n, within (exactly n) n.
Proof. intros n. exists n, (Some n). split; auto. split; [lia|]. intros x E. injection E as <-. lia. Qed.
Lemma within_then : forall a b n m, within a n -> within b m -> within (andThen a b) (n + m).
Proof.
  intros a b n m (l & h & -> & L & H) (l' & h' & -> & L' & H'). exists (l + l'), (both Z.add h h'). split; auto. split; [lia|].
  intros x E. destruct h as [h|], h' as [h'|]; try discriminate. injection E as <-. specialize (H _ eq_refl). specialize (H' _ eq_refl). lia.
Qed.
Lemma within_left : forall a b n, within a n -> within (orElse a b) n.
Proof.
  intros a b n (l & h & -> & L & H). destruct b as [[l' h']|]; [|exists l, h; auto].
  exists (Z.min l l'), (both Z.max h h'). split; auto. split; [lia|]. intros x E.
  destruct h as [h|], h' as [h'|]; try discriminate. injection E as <-. specialize (H _ eq_refl). lia.
Qed.
Lemma within_right : forall a b n, within b n -> within (orElse a b) n.
Proof.
  intros a b n (l & h & -> & L & H). destruct a as [[l' h']|]; [|exists l, h; auto].
  exists (Z.min l' l), (both Z.max h' h). split; auto. split; [lia|]. intros x E.
  destruct h as [h|], h' as [h'|]; try discriminate. injection E as <-. specialize (H _ eq_refl). lia.
Qed.
Lemma within_cut : forall a n e, within a n -> fst e <= n -> (forall x, snd e = Some x -> n <= x) -> within (cut e a) n.
Proof.
  intros a n [lo hi] (l & h & -> & L & H) A B. cbn [fst snd cut] in *. eexists _, _. split; [reflexivity|]. split; [lia|].
  intros x E. destruct hi as [y|], h as [h|]; cbn [upper] in E; try discriminate; injection E as <-;
    try specialize (H _ eq_refl); try specialize (B _ eq_refl); lia.
Qed.
(** So many times, from what one time gives. *)
Lemma within_times : forall a k n m, within (times k a) n -> within a m -> 0 <= k -> within (times (k + 1) a) (m + n).
Proof.
  intros a k n m N (l & h & -> & L & H) K. unfold times in *. replace (k + 1 <=? 0) with false by lia.
  destruct (Z.leb_spec k 0) as [K0|K0].
  - assert (k = 0) as -> by lia. destruct N as (l0 & h0 & E & L0 & H0). injection E as <- <-. specialize (H0 _ eq_refl).
    eexists _, _. split; [reflexivity|]. split; [lia|]. intros x E. destruct h as [h|]; [|discriminate]. assert (x = (0 + 1) * h) as -> by (cbn [option_map] in E; congruence).
    specialize (H _ eq_refl). lia.
  - destruct N as (l0 & h0 & E & L0 & H0). injection E as <- <-. eexists _, _. split; [reflexivity|]. split; [lia|].
    intros x E. destruct h as [h|]; [|discriminate]. cbn [option_map] in *. injection E as <-. specialize (H _ eq_refl). specialize (H0 _ eq_refl). lia.
Qed.
Lemma within_between : forall a k n e, within (times k a) n -> 0 <= k -> 0 <= n -> 0 <= fst e <= k -> (forall x, snd e = Some x -> k <= x) ->
  within (between e a) n.
Proof.
  intros a k n [lo hi] N K N0 A B. cbn [fst snd] in *. unfold times in N. destruct (Z.leb_spec k 0) as [K0|K0].
  - destruct N as (l & h & E & L & H). injection E as <- <-. specialize (H _ eq_refl). assert (n = 0) as -> by lia. assert (lo = 0) as -> by lia.
    destruct a as [[l h]|]; cbn [between fst snd]; [|apply within_nothing].
    eexists _, _. split; [reflexivity|]. split; [lia|]. intros x E. destruct h as [h|]; [|discriminate].
    destruct (Z.leb_spec h 0); [injection E as <-; lia|]. destruct hi as [y|]; [|discriminate]. cbn in E. injection E as <-. specialize (B _ eq_refl). nia.
  - destruct a as [[l h]|]; [|destruct N as (? & ? & E & _); discriminate]. destruct N as (l0 & h0 & E & L0 & H0). injection E as <- <-.
    cbn [between fst snd]. eexists _, _. split; [reflexivity|]. split; [nia|]. intros x E. destruct h as [h|]; [|discriminate].
    cbn in H0. specialize (H0 _ eq_refl). destruct (Z.leb_spec h 0); [injection E as <-; nia|].
    destruct hi as [y|]; [|discriminate]. cbn in E. injection E as <-. specialize (B _ eq_refl). nia.
Qed.

(* ---------- limits ---------- *)

Lemma field_in : forall fl nm t, fieldOf fl nm = Some t -> In (nm, t) fl.
Proof.
  intros fl nm t H. unfold fieldOf in H. destruct (find _ fl) as [[a t']|] eqn:E; [|discriminate]. cbn in H. injection H as ->.
  pose proof (find_some _ _ E) as [I N]. cbn [fst] in N. apply String.eqb_eq in N as ->. exact I.
Qed.
Lemma find_field : forall fl nm sz cst, fieldOf fl nm = Some (TInt sz cst) -> findIntField nm fl = Ok (sz, cst).
Proof.
  unfold fieldOf. induction fl as [|[a t] fl IH]; intros nm sz cst H; cbn [find findIntField fst] in *; [discriminate|].
  destruct (String.eqb a nm); [|auto]. cbn in H. injection H as ->. reflexivity.
Qed.
Lemma least_le : forall r sz l x, in_list (Constant r) l x -> least r sz l <= x.
Proof.
  intros r sz l x (g & a & b & I & E & B). induction l as [|h l IH]; [destruct I|]. cbn [least fold_right]. fold (least r sz l).
  destruct I as [->|I]; [rewrite E; lia|]. specialize (IH I). destruct (range_bounds _ h) as [[]|]; lia.
Qed.
Lemma largest_ge : forall r l x, in_list (Constant r) l x -> x <= largest r l.
Proof.
  intros r l x (g & a & b & I & E & B). induction l as [|h l IH]; [destruct I|]. cbn [largest fold_right]. fold (largest r l).
  destruct I as [->|I]; [rewrite E; lia|]. specialize (IH I). destruct (range_bounds _ h) as [[]|]; lia.
Qed.
Lemma ends_of : forall r sz cst x, 0 <= x < 2 ^ sz -> allowed r cst x -> 0 <= fst (endsOf r sz cst) <= x /\ forall y, snd (endsOf r sz cst) = Some y -> x <= y.
Proof.
  intros r sz [l|] x B A; cbn [endsOf fst snd]; (split; [|intros y E; injection E as <-]); try lia.
  - pose proof (least_le r sz l x (A _ eq_refl)). lia.
  - pose proof (largest_ge r l x (A _ eq_refl)). lia.
Qed.

(* ---------- the decoder ---------- *)

Section Size.
Variable camel : string -> string.
Variable r : resolver.
Variable K : string -> span.
Variable s : struct.
Notation flds := (flat_map allFields (members_of s)).

Section Body.
Variable dcall : string -> amap value -> bytes -> outcome (value * bytes).
Variable n : nat.
Variable cenv : amap value.
Variable dat : bytes.
Hypothesis Hokc : forall nm ce c v c', okc c -> dcall nm ce c = Ok (v, c') -> okc c'.
Hypothesis Hleft : forall nm ce c v c', blen c < two63 -> dcall nm ce c = Ok (v, c') -> blen c' <= blen c.
Hypothesis Hcall : forall nm c v c', okc c -> dcall nm cenv c = Ok (v, c') -> within (K nm) (blen c - blen c').
Hypothesis Hctxs : tctxs camel r (scontexts s) cenv.
Hypothesis Hsafe : forall nm s' c, Struct r nm = Some s' -> Extern s' = false ->
  (forall x, In x (scontexts s') -> In x (scontexts s)) -> okc c -> sat False (fun vc => okc (snd vc)) (dcall nm cenv c).
Hypothesis Hnd : NoDup (map (fun f => camel (fst f)) flds).
Hypothesis Hsize : forall nm sz cst, In (nm, TInt sz cst) flds -> goodSize sz = true.
Notation d := (blen dat).
Notation decBase := (decBase r dcall cenv d).
Notation decFor := (decFor r dcall cenv d).
Notation decWhile := (decWhile r dcall cenv d).
Notation decType := (decType camel r dcall n cenv d).
Notation decMember := (decMember camel r dcall n cenv d).
Notation decMembers := (decMembers camel r dcall n cenv d).
Notation spanT := (spanT r K s).
Notation spanM := (spanM r K s).
Notation spanMs := (spanMs r K s).
Notation limit := (limit r s).

Lemma int_taken : forall sz cst c v c', 0 <= sz / 8 -> decInt r sz cst c = Ok (v, c') -> blen c - blen c' = sz / 8.
Proof.
  intros sz cst c v c' S H. unfold decInt in H. destruct (blen c <? sz / 8) eqn:E; [discriminate|].
  destruct (match cst with None => true | Some l => _ end); [|discriminate]. injection H as _ <-. rewrite blen_skip; lia.
Qed.
Definition sized (t : type) : Prop := forall sz cst, t = TInt sz cst -> 0 <= sz / 8.
Lemma base_span : forall t c v c', sized t -> okc c -> decBase t c = Ok (v, c') -> within (spanT t) (blen c - blen c').
Proof.
  intros t c v c' S O H. destruct t as [sz cst| | | |nm|b i|b l]; cbn [GenDecode.decBase SizeSpec.spanT] in *; try discriminate.
  - rewrite (int_taken _ _ _ _ _ (S _ _ eq_refl) H). apply within_exactly.
  - rewrite (int_taken 8 _ _ _ _ ltac:(apply Z.leb_le; reflexivity) H). apply within_exactly.
  - injection H as _ <-. rewrite Z.sub_diag. apply within_nothing.
  - apply decNul_less in H; [|apply O]. exists 1, None. split; auto. split; [lia|discriminate].
  - eauto.
Qed.
Lemma for_span : forall m t k c v c', sized t -> okc c -> decFor m t k c = Ok (v, c') -> within (times k (spanT t)) (blen c - blen c').
Proof.
  induction m as [|m IH]; intros t k c v c' S O H; cbn [GenDecode.decFor] in H; destruct (Z.leb_spec k 0) as [K0|K0]; try discriminate;
    try (injection H as _ <-; rewrite Z.sub_diag; unfold times; replace (k <=? 0) with true by lia; apply within_nothing).
  apply bind_ok in H as ([v1 c1] & H1 & H). apply bind_ok in H as ([vs c2] & H2 & H). injection H as _ <-.
  assert (O1 : okc c1) by (eapply base_okc; eauto).
  pose proof (base_span _ _ _ _ S O H1) as B. pose proof (IH _ _ _ _ _ S O1 H2) as T.
  replace k with (k - 1 + 1) by lia. replace (blen c - blen c2) with (blen c - blen c1 + (blen c1 - blen c2)) by lia.
  apply (within_times (spanT t) (k - 1)); auto. lia.
Qed.

(** References stay between their limits. *)
Notation tk := (tk camel r flds).
Notation kin := (kin flds).
Lemma ref_limit : forall k fs f sz x, refWidth r (scontexts s) k f = Some sz -> tk k fs -> kin k -> refVal camel fs cenv f = Ok x -> 0 <= s64 x ->
  0 <= fst (limit f) <= s64 x /\ forall y, snd (limit f) = Some y -> s64 x <= y.
Proof.
  intros k fs f sz x RW T KI H P. unfold SizeSpec.limit. unfold refWidth, refVal in *.
  destruct (String.eqb_spec (rscope f) "") as [E|E].
  - apply alookup_some_in in RW. destruct (T _ _ RW) as (z & Ez & B & AL). rewrite Ez in H. injection H as ->.
    destruct (KI _ _ RW) as [cst Ic]. pose proof (Hsize _ _ _ Ic) as G.
    assert (W : x < two64). { unfold two64. unfold goodSize in G. assert (2 ^ sz <= 2 ^ 64) by (apply Z.pow_le_mono_r; lia). lia. }
    assert (s64 x = x) as ->.
    { unfold s64 in *. rewrite Z.mod_small in * by lia. destruct (x <? two63); lia. }
    destruct (fieldOf flds (rname f)) as [t|] eqn:F; [|cbn; split; [lia|discriminate]].
    pose proof (field_in _ _ _ F) as J. pose proof (same_field camel flds Hnd _ _ _ Ic J) as <-. apply ends_of; auto.
  - unfold ctxField in RW. destruct (memb (rscope f) (scontexts s)) eqn:M; [|discriminate]. apply memb_in in M.
    destruct (Context r (rscope f)) as [c|] eqn:EC; [|discriminate].
    destruct (findIntField (rname f) (cmembers c)) as [[sz' cst]| | |] eqn:EF; try discriminate. injection RW as ->.
    destruct (Hctxs _ M) as (v & Ev & ty & cf & -> & HT). destruct (HT _ EC _ _ _ EF) as (z & Ez & B).
    rewrite Ev in H. cbn [asFields bind] in H. rewrite Ez in H. injection H as ->.
    destruct (fieldOf (cmembers c) (rname f)) as [t|] eqn:F; [|cbn; split; [lia|discriminate]].
    destruct t as [sz' cst'| | | | | |]; try (cbn; split; [lia|discriminate]).
    apply find_field in F. rewrite EF in F. injection F as <- <-. cbn [endsOf fst snd]. split; [lia|]. intros y Ey. injection Ey as <-.
    pose proof (s64_below x ltac:(lia)). lia.
Qed.

Lemma taken_pos : forall t fs c v c', okc c -> decType fs t c = Ok (v, c') -> 0 <= blen c - blen c'.
Proof. intros t fs c v c' O H. pose proof (decType_left camel r dcall n cenv dat Hleft fs t c v c' (proj2 O) H). lia. Qed.

(** The sizes of the integers in a type. *)
Fixpoint sizes (t : type) : Prop := match t with TInt sz _ => 0 <= sz / 8 | TFixed b _ | TVar b _ => sizes b | _ => True end.
Lemma type_span : forall k fs t c v c', sizes t -> checkType r (scontexts s) k t = true -> tk k fs -> kin k -> okc c ->
  decType fs t c = Ok (v, c') -> within (spanT t) (blen c - blen c').
Proof.
  intros k fs t c v c' S C T KI O H. pose proof (taken_pos _ _ _ _ _ O H) as P.
  assert (SB : forall b, sizes b -> sized b) by (intros b Sb sz cst ->; exact Sb).
  destruct t as [sz cst| | | |nm|b i|b [[f|i]|]]; cbn [GenDecode.decType] in H; try (apply (base_span _ _ _ _ (SB _ S) O H)).
  - apply bind_ok in H as (kk & Hk & H). apply bind_ok in H as ([vs c1] & H & E). injection E as _ <-.
    cbn [SizeSpec.spanT]. apply integerOf_value in Hk. rewrite Hk. eapply for_span; eauto.
  - apply bind_ok in H as (x & Hx & H). apply bind_ok in H as (g & _ & H).
    destruct ((s64 x <? 0) || (maxAlloc <? s64 x * gsize g)) eqn:M; [discriminate|].
    apply bind_ok in H as ([vs c1] & H & E). injection E as _ <-. cbn [SizeSpec.spanT].
    cbn [checkType] in C. apply andb_true_iff in C as [_ C]. destruct (refWidth r (scontexts s) k f) as [sz|] eqn:RW; [|discriminate].
    destruct (ref_limit k fs f sz x RW T KI Hx ltac:(lia)) as [B1 B2].
    apply within_between with (k := s64 x); auto; [|lia]. eapply for_span; eauto.
  - apply within_anything; auto.
  - apply within_anything; auto.
Qed.

(** The cases of a union. *)
Definition inside (ms : list member) : span := fold_right (fun m b => andThen (spanM m) b) nothing ms.
Definition among (e : span) (cs : list ucase) : span := fold_right (fun c a => orElse (match c with UCase _ ms => inside ms end) a) e cs.
Lemma among_in : forall e cs k ms m, In (UCase k ms) cs -> within (inside ms) m -> within (among e cs) m.
Proof.
  intros e cs k ms m I W. induction cs as [|c cs IH]; [destruct I|]. cbn [among fold_right]. destruct I as [->|I].
  - now apply within_left.
  - apply within_right. auto.
Qed.
Lemma among_end : forall e cs m, within e m -> within (among e cs) m.
Proof. intros e cs m W. induction cs as [|c cs IH]; [exact W|]. cbn [among fold_right]. now apply within_right. Qed.

Notation hasF := (hasF camel flds).
Notation lrefs := (flat_map lengthRefs (members_of s)).
Lemma member_keeps : forall m k fs c fs' c', checkMember r (scontexts s) k m = true -> apart camel k (fieldNames m) ->
  NoDup (map camel (fieldNames m)) -> incl (allFields m) flds -> incl (lengthRefs m) lrefs -> kin k -> tk k fs -> hasF fs -> okc c ->
  decMember m fs c = Ok (fs', c') -> tk (addKnown k m) fs' /\ hasF fs' /\ okc c'.
Proof.
  intros m k fs c fs' c' C A ND IF IL KI T HF O H.
  pose proof (member_safe camel r False dcall n (scontexts s) cenv dat flds lrefs Hctxs (False_ind _) Hnd Hsafe m k fs c C A ND IF IL KI T HF O) as S.
  rewrite H in S. exact S.
Qed.
Definition mspan (m : member) : Prop := forall k fs c fs' c', (forall nm t, In (nm, t) (allFields m) -> sizes t) ->
  checkMember r (scontexts s) k m = true -> apart camel k (fieldNames m) -> NoDup (map camel (fieldNames m)) ->
  incl (allFields m) flds -> incl (lengthRefs m) lrefs -> kin k -> tk k fs -> hasF fs -> okc c ->
  decMember m fs c = Ok (fs', c') -> within (spanM m) (blen c - blen c').
Lemma members_span0 : forall ms, Forall mspan ms -> forall k fs c fs' c', (forall nm t, In (nm, t) (flat_map allFields ms) -> sizes t) ->
  checkMembers r (scontexts s) k ms = true -> apart camel k (flat_map fieldNames ms) -> NoDup (map camel (flat_map fieldNames ms)) ->
  incl (flat_map allFields ms) flds -> incl (flat_map lengthRefs ms) lrefs -> kin k -> tk k fs -> hasF fs -> okc c ->
  decMembers ms fs c = Ok (fs', c') -> within (inside ms) (blen c - blen c').
Proof.
  induction ms as [|m ms IH]; intros F k fs c fs' c' S C A ND IF IL KI T HF O H; cbn [GenDecode.decMembers inside fold_right] in *.
  - injection H as _ <-. rewrite Z.sub_diag. apply within_nothing.
  - apply bind_ok in H as ([fs1 c1] & H1 & H). cbn [checkMembers flat_map] in *. apply andb_true_iff in C as [C1 C2]. rewrite map_app in ND.
    assert (IF1 : incl (allFields m) flds) by (intros y Hy; apply IF, in_or_app; auto).
    assert (IL1 : incl (lengthRefs m) lrefs) by (intros y Hy; apply IL, in_or_app; auto).
    assert (A1 : apart camel k (fieldNames m)) by (intros x y Hx Hy; apply A; auto; apply in_or_app; auto).
    pose proof (NoDup_app_l _ _ ND) as N1.
    destruct (member_keeps m k fs c fs1 c1 C1 A1 N1 IF1 IL1 KI T HF O H1) as (T1 & HF1 & O1).
    replace (blen c - blen c') with (blen c - blen c1 + (blen c1 - blen c')) by lia. apply within_then.
    + apply (Forall_inv F k fs c fs1 c1); auto. intros nm t J. apply (S nm t). apply in_or_app. auto.
    + apply (IH (Forall_inv_tail F) (addKnown k m) fs1 c1 fs' c'); auto.
      * intros nm t J. apply (S nm t). apply in_or_app. auto.
      * intros x y Hx Hy. apply addKnown_names in Hx. destruct Hx as [Hx|Hx].
        -- apply A; auto. apply in_or_app; auto.
        -- intros E. apply (NoDup_app_disj _ _ (camel x) ND); [now apply in_map|rewrite E; now apply in_map].
      * eapply NoDup_app_r; eauto.
      * intros y Hy. apply IF, in_or_app. auto.
      * intros y Hy. apply IL, in_or_app. auto.
      * intros nm sz Ix. destruct m as [nm' t| | | |]; cbn [addKnown] in Ix; auto. destruct t; auto.
        destruct Ix as [E|Ix]; auto. injection E as <- <-. eexists. apply IF1. cbn. eauto.
Qed.
Lemma member_span : forall m, mspan m.
Proof.
  induction m as [nm t|u tag len cs IH| | |] using member_ind'; intros k fs c fs' c' S C A ND IF IL KI T HF O H.
  - cbn [GenDecode.decMember] in H. apply bind_ok in H as ([v c1] & H1 & H). injection H as _ <-.
    cbn [SizeSpec.spanM]. apply (type_span k fs t c v c1); auto. apply (S nm). cbn. auto.
  - destruct (check_union _ _ _ _ _ _ _ C) as ((sz & RW) & CL & CC). cbn [fieldNames allFields lengthRefs] in *.
    assert (BODY : forall x c0 c1, okc c0 -> decPick camel r dcall n cenv dat cs x cs fs c0 = Ok (fs', c1) ->
      within (among (if hasDefault cs then None else nothing) cs) (blen c0 - blen c1)).
    { intros x c0 c1 O0 D. rewrite decPick_choice in D. destruct (choice r x cs cs) as [ms|] eqn:EC.
      - destruct (choice_in _ _ _ _ EC) as [l J]. apply among_in with (k := l) (ms := ms); auto.
        rewrite Forall_forall in IH. specialize (IH _ J). cbn [ucase_members] in IH. destruct (CC _ J) as [_ CM]. cbn [ucase_members] in CM.
        apply (members_span0 ms IH k fs c0 fs' c1); auto.
        + intros nm t Hy. apply (S nm t). apply in_flat_map. exists (UCase l ms). auto.
        + intros a b Ha Hb. apply A; auto. apply in_flat_map. exists (UCase l ms). auto.
        + clear - ND J.
          assert (X : map camel (flat_map (fun c => match c with UCase _ ms => flat_map fieldNames ms end) cs) =
                      flat_map (fun c => map camel (match c with UCase _ ms => flat_map fieldNames ms end)) cs).
          { clear. induction cs; auto. cbn. now rewrite map_app, IHcs. }
          rewrite X in ND. apply (NoDup_flat_map _ _ _ ND J).
        + intros y Hy. apply IF. apply in_flat_map. exists (UCase l ms). auto.
        + intros y Hy. apply IL. apply in_or_app. right. apply in_flat_map. exists (UCase l ms). auto.
      - injection D as _ <-. rewrite Z.sub_diag. apply among_end.
        assert (NDef : hasDefault cs = false).
        { unfold choice in EC. destruct (pickCase r x cs); [discriminate|]. clear - EC. unfold hasDefault.
          induction cs as [|[[l|] ms] cs IH]; cbn in *; auto. discriminate. }
        rewrite NDef. apply within_nothing. }
    rewrite decMember_union in H. cbn zeta in H. cbn [SizeSpec.spanM]. fold (inside). fold (among (if hasDefault cs then None else nothing) cs).
    assert (W : forall kk, decWithin kk c (fun c0 => x <- refVal camel fs cenv tag ;; decPick camel r dcall n cenv dat cs x cs fs c0) = Ok (fs', c') ->
      within (among (if hasDefault cs then None else nothing) cs) (blen c - blen c') /\ blen c - blen c' = kk /\ 0 <= kk).
    { intros kk W. apply within_ok in W as (KB & -> & c1 & W & L). apply bind_ok in W as (x & _ & W).
      apply BODY in W; [|now apply okc_first]. rewrite blen_first in W by lia. rewrite blen_skip by lia. pose proof (blen_nonneg c1).
      replace (blen c - (blen c - kk)) with (kk - blen c1) by lia. split; [auto|lia]. }
    destruct len as [[f|i]|]; cbn [decConstr] in H.
    + apply bind_ok in H as (x & Hk & H). destruct (W _ H) as (W1 & W2 & W3). destruct CL as (sz' & RW').
      destruct (ref_limit k fs f sz' x RW' T KI Hk W3) as [B1 B2]. apply within_cut; auto; rewrite W2; [lia|auto].
    + apply bind_ok in H as (kk & _ & H). apply leaving_ok in H as [k' H]. apply (W _ H).
    + apply bind_ok in H as (x & _ & H). eapply BODY; eauto.
  - cbn in H. destruct (0 <? blen c); [discriminate|]. injection H as _ <-. rewrite Z.sub_diag. apply within_nothing.
  - discriminate.
  - cbn in H. injection H as _ <-. apply within_anything. change (blen (@nil Z)) with 0. pose proof (blen_nonneg c). lia.
Qed.
Lemma members_span : forall fs c fs' c', (forall nm t, In (nm, t) flds -> sizes t) -> checkStruct camel r s = true ->
  hasF fs -> okc c -> decMembers (members_of s) fs c = Ok (fs', c') -> within (spanMs (members_of s)) (blen c - blen c').
Proof.
  intros fs c fs' c' S CS HF O H.
  assert (F : Forall mspan (members_of s)) by (apply Forall_forall; intros m _; apply member_span).
  apply (members_span0 _ F [] fs c fs' c'); auto.
  - exact (checked_members camel r s CS).
  - intros x y [].
  - unfold checkStruct in CS. apply andb_true_iff in CS as [CS _]. apply andb_true_iff in CS as [CS _].
    apply andb_true_iff in CS as [_ CS]. now apply nodupb_NoDup.
  - apply incl_refl.
  - apply incl_refl.
  - intros x y [].
  - intros x y [].
Qed.
End Body.
End Size.

(* ---------- packages ---------- *)

Section Prog.
Variable camel : string -> string.
Variable os : nat -> orders.
Variable fs : list file.
Variable r : resolver.
Variable p : program.
Hypothesis PK : package camel os fs r p.

Lemma field_sizes : forall s, In s (definedStructs fs) -> forall nm t, In (nm, t) (flat_map allFields (members_of s)) -> sizes t.
Proof.
  intros s I nm t J. destruct (PackageProofs.struct_types camel os fs r p PK s I nm t J) as [k C].
  assert (G : forall sz, goodSize sz = true -> 0 <= sz / 8).
  { intros sz H. apply Z.div_pos; [|lia]. unfold goodSize in H. lia. }
  assert (B : forall b, checkBase r (scontexts s) b = true -> sizes b).
  { intros b H. destruct b as [sz cst| | | | | |]; cbn in *; auto; try discriminate. unfold checkInt in H.
    apply andb_true_iff in H as [H _]. auto. }
  destruct t as [sz cst| | | |x|b i|b [[f|i]|]]; cbn [checkType sizes] in *; auto;
    repeat match goal with H : _ && _ = true |- _ => apply andb_true_iff in H as [? ?] end; auto.
  apply (B (TInt sz cst)); auto.
Qed.

Lemma struct_span : forall m k s fs0 args c fs' c', In s (definedStructs fs) -> calls camel r false s fs0 args c ->
  decMembers camel r (decCall camel r m) m (combine (scontexts s) args) (blen c) (members_of s) fs0 c = Ok (fs', c') ->
  within (spanOf r k s) (blen c - blen c').
Proof.
  assert (STR : forall nm s', Struct r nm = Some s' -> Extern s' = false -> checkStruct camel r s' = true /\ (False -> narrow r s')).
  { intros nm s' HS HE. destruct (pk_res camel os fs r p PK _ _ HS HE) as [_ ID]. split; [exact (pk_check camel os fs r p PK _ ID)|tauto]. }
  induction m as [|m IH]; intros k s fs0 args c fs' c' I CA H.
  all: assert (MF : map fst (combine (scontexts s) args) = scontexts s) by (apply map_fst_combine; symmetry; apply CA).
  all: eapply (members_span camel r (spanIn r k) s) with (n := _) (dat := c); try exact H; try exact MF; try apply CA.
  all: try (intros *; apply call_okc).
  all: try (intros *; apply decCall_left).
  all: try (apply (struct_nodup camel os fs r p PK s I)).
  all: try (apply (good_sizes camel os fs r p PK s I)).
  all: try (apply (field_sizes s I)).
  all: try (apply (pk_check camel os fs r p PK s I)).
  all: try (intros nm t J; destruct (ca_shaped _ _ _ _ _ _ _ CA nm t J) as (v & E & _); eauto; fail).
  all: try (intros nm s' c0 HS HE SUB O; eapply (call_safe camel r False STR); eauto; apply CA).
  all: intros nm c0 v c1 O HD; pose proof (decCall_left camel r _ _ _ _ _ _ (proj2 O) HD) as LE.
  all: destruct k as [|k]; [apply within_anything; lia|].
  all: cbn [decCall] in HD; destruct (Struct r nm) as [s'|] eqn:HS; [|discriminate].
  all: apply bind_ok in HD as (ds & Hds & HD); apply bind_ok in HD as (args' & HA & HD); try discriminate HD.
  apply bind_ok in HD as ([fs1 c2] & HD & E). injection E as _ <-. cbn [spanIn]. rewrite HS. fold (spanOf r k s').
  destruct (Extern s') eqn:EX.
  - unfold Extern in EX. unfold spanOf, members_of in *. destruct (smembers s'); [discriminate|]. cbn in HD. injection HD as _ <-. rewrite Z.sub_diag. apply within_nothing.
  - assert (I' : In s' (definedStructs fs)) by (apply (pk_res camel os fs r p PK nm s' HS EX)).
    apply (IH k s' (zeros ds) args' c0 fs1 c2 I'); [|exact HD].
    eapply (nested_calls camel os fs r p PK false s' ds); eauto. apply CA.
Qed.

Theorem parse_span : forall s fs0 data args fs1 rest k, validCall camel fs r s fs0 data args ->
  parses camel p s fs0 data args fs1 rest -> within (spanOf r k s) (blen data - blen rest).
Proof.
  intros s fs0 data args fs1 rest k VC H.
  apply (parses_dec camel os fs r p PK s fs0 data args VC) in H as [n H].
  destruct n as [|n]; [discriminate|]. cbn [decStruct] in H. unfold contextsOf in H.
  eapply struct_span; eauto using (fun s fs0 data args V => valid_calls camel os fs r p PK false s fs0 data args V (fun E : false = true => False_ind _ (Bool.diff_false_true E))).
  apply defines_in, VC.
Qed.
End Prog.
