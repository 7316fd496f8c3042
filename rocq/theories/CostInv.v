(** Integer fields hold values of their widths all through parsing, so the lengths
    of arrays are bounded by the widths of the fields that hold them. *)
From Coq Require Import ZArith String List Bool Lia.
From Coq Require Import ZifyBool ZifyNat.
From Verif Require Import Base Ast IntervalsModel InspectModel InspectSpec InspectProofs BranchProofs GoLang GenModel GenDecode GenCheck
  GenSim GenSimBody GenSimProg GenSafe WireSpec WireProofs WireComplete GenTerm PackageSpec PackageProofs CostSpec CostDec.
Import ListNotations.
Open Scope string_scope.
Open Scope list_scope.
Open Scope Z_scope.

Lemma within_ok : forall {A} k c (body : bytes -> outcome (A * bytes)) a c', decWithin k c body = Ok (a, c') ->
  0 <= k <= blen c /\ c' = skipn (Z.to_nat k) c /\ exists c1, body (firstn (Z.to_nat k) c) = Ok (a, c1) /\ blen c1 <= 0.
Proof.
  intros A k c body a c' H. unfold decWithin in H. destruct (blen c <? k) eqn:E; [discriminate|].
  destruct (k <? 0) eqn:E2; [discriminate|]. apply bind_ok in H as ([a1 c1] & H1 & H).
  destruct (0 <? blen c1) eqn:E3; [discriminate|]. injection H as <- <-. split; [lia|]. split; auto. exists c1. split; auto. lia.
Qed.
Lemma leaving_ok : forall {A} k c (body : bytes -> outcome (A * bytes)) a c', decLeaving k c body = Ok (a, c') ->
  exists k', decWithin k' c body = Ok (a, c').
Proof.
  intros A k c body a c' H. unfold decLeaving in H. destruct (k <? 0); [discriminate|].
  destruct (blen c <? k); [discriminate|]. eauto.
Qed.

Section Inv.
Variable camel : string -> string.
Variable r : resolver.

(* ---------- the bytes left ---------- *)

Section Left.
Variable dcall : string -> amap value -> bytes -> outcome (value * bytes).
Variable n : nat.
Variable cenv : amap value.
Variable dat : bytes.
Notation d := (blen dat).
Hypothesis Hc : forall nm ce c v c', okc c -> dcall nm ce c = Ok (v, c') -> okc c'.
Notation decBase := (decBase r dcall cenv d).
Notation decFor := (decFor r dcall cenv d).
Notation decWhile := (decWhile r dcall cenv d).
Notation decType := (decType camel r dcall n cenv d).
Notation decMember := (decMember camel r dcall n cenv d).
Notation decMembers := (decMembers camel r dcall n cenv d).

Lemma int_okc : forall sz cst c v c', okc c -> decInt r sz cst c = Ok (v, c') -> okc c'.
Proof.
  intros sz cst c v c' O H. unfold decInt in H. destruct (blen c <? sz / 8); [discriminate|].
  destruct (match cst with None => true | Some l => _ end); [|discriminate]. injection H as _ <-. now apply okc_skip.
Qed.
Lemma base_okc : forall t c v c', okc c -> decBase t c = Ok (v, c') -> okc c'.
Proof.
  intros t c v c' O H. destruct t; cbn [GenDecode.decBase] in H; try discriminate.
  - eapply int_okc; eauto.
  - eapply int_okc; eauto.
  - injection H as _ <-. auto.
  - unfold decNul in H. destruct (indexByte c 0 0 <? 0); [discriminate|]. destruct (_ || _); [discriminate|].
    injection H as _ <-. now apply okc_skip.
  - eapply Hc; eauto.
Qed.
Lemma for_okc : forall m t k c v c', okc c -> decFor m t k c = Ok (v, c') -> okc c'.
Proof.
  induction m as [|m IH]; intros t k c v c' O H; cbn [GenDecode.decFor] in H; destruct (k <=? 0); try discriminate;
    try (injection H as _ <-; auto; fail).
  apply bind_ok in H as ([v1 c1] & H1 & H). apply bind_ok in H as ([vs c2] & H2 & H). injection H as _ <-. eauto using base_okc.
Qed.
Lemma while_okc : forall m t c v c', okc c -> decWhile m t c = Ok (v, c') -> okc c'.
Proof.
  induction m as [|m IH]; intros t c v c' O H; cbn [GenDecode.decWhile] in H; destruct (blen c <=? 0); try discriminate;
    try (injection H as _ <-; auto; fail).
  apply bind_ok in H as ([v1 c1] & H1 & H). apply bind_ok in H as ([vs c2] & H2 & H). injection H as _ <-. eauto using base_okc.
Qed.
Lemma within_okc : forall {A} k c (body : bytes -> outcome (A * bytes)) a c', okc c -> decWithin k c body = Ok (a, c') -> okc c'.
Proof. intros A k c body a c' O H. apply within_ok in H as (_ & -> & _). now apply okc_skip. Qed.
Lemma type_okc : forall fs t c v c', okc c -> decType fs t c = Ok (v, c') -> okc c'.
Proof.
  intros fs t c v c' O H. destruct t as [| | | | |b i|b [[f|i]|]]; cbn [GenDecode.decType] in H; try (eapply base_okc; eauto; fail).
  - apply bind_ok in H as (k & _ & H). apply bind_ok in H as ([vs c1] & H & E). injection E as _ <-. eapply for_okc; eauto.
  - apply bind_ok in H as (x & _ & H). apply bind_ok in H as (g & _ & H). destruct (_ || _); [discriminate|].
    apply bind_ok in H as ([vs c1] & H & E). injection E as _ <-. eapply for_okc; eauto.
  - apply bind_ok in H as (k & _ & H). apply leaving_ok in H as [k' H]. eapply within_okc; eauto.
  - apply bind_ok in H as ([vs c1] & H & E). injection E as _ <-. eapply while_okc; eauto.
Qed.

Definition mokc (m : member) : Prop := forall fs c fs' c', okc c -> decMember m fs c = Ok (fs', c') -> okc c'.
Lemma members_okc0 : forall ms, Forall mokc ms -> forall fs c fs' c', okc c -> decMembers ms fs c = Ok (fs', c') -> okc c'.
Proof.
  induction ms as [|m ms IH]; intros F fs c fs' c' O H; cbn [GenDecode.decMembers] in H.
  - injection H as _ <-. auto.
  - apply bind_ok in H as ([fs1 c1] & H1 & H). apply (Forall_inv F) in H1; auto. eapply (IH (Forall_inv_tail F)); eauto.
Qed.
(** The body of a union. *)
Lemma union_body : forall u tag len cs fs c fs' c', okc c -> decMember (MUnion u tag len cs) fs c = Ok (fs', c') ->
  exists c0 c1 x, okc c0 /\ decPick camel r dcall n cenv dat cs x cs fs c0 = Ok (fs', c1) /\ (okc c1 -> okc c').
Proof.
  intros u tag len cs fs c fs' c' O H. rewrite decMember_union in H. cbn zeta in H.
  assert (W : forall k, decWithin k c (fun c0 => x <- refVal camel fs cenv tag ;; decPick camel r dcall n cenv dat cs x cs fs c0) = Ok (fs', c') ->
    exists c0 c1 x, okc c0 /\ decPick camel r dcall n cenv dat cs x cs fs c0 = Ok (fs', c1) /\ (okc c1 -> okc c')).
  { intros k W. apply within_ok in W as (K & -> & c1 & W & L). apply bind_ok in W as (x & _ & W).
    exists (firstn (Z.to_nat k) c), c1, x. split; [now apply okc_first|]. split; auto. intros _. now apply okc_skip. }
  destruct len as [[f|i]|]; cbn [decConstr] in H.
  - apply bind_ok in H as (k & _ & H). eauto.
  - apply bind_ok in H as (k & _ & H). apply leaving_ok in H as [k' H]. eauto.
  - apply bind_ok in H as (x & _ & H). exists c, c', x. auto.
Qed.
Lemma member_okc : forall m, mokc m.
Proof.
  induction m as [nm t|u tag len cs IH| | |] using member_ind'; intros fs c fs' c' O H.
  - cbn [GenDecode.decMember] in H. apply bind_ok in H as ([v c1] & H1 & H). injection H as _ <-. eapply type_okc; eauto.
  - apply union_body in H as (c0 & c1 & x & O0 & H & OK); auto. apply OK.
    destruct (decPick_in camel r dcall n cenv dat cs x cs fs c0) as [(k & ms & J & E)|E]; rewrite E in H.
    + assert (J' : In (UCase k ms) cs) by (apply in_app_or in J; tauto).
      rewrite Forall_forall in IH. apply (members_okc0 ms (IH _ J')) in H; auto.
    + injection H as _ <-. auto.
  - cbn in H. destruct (0 <? blen c); [discriminate|]. injection H as _ <-. auto.
  - discriminate.
  - cbn in H. injection H as _ <-. split; [constructor|]. unfold blen, two63. cbn. lia.
Qed.
Lemma members_okc : forall ms fs c fs' c', okc c -> decMembers ms fs c = Ok (fs', c') -> okc c'.
Proof. intros ms. apply members_okc0. apply Forall_forall. intros m _. apply member_okc. Qed.

(* ---------- the fields ---------- *)

Variable flds : list (string * type).
Hypothesis Hnd : NoDup (map (fun f => camel (fst f)) flds).
Hypothesis Hsize : forall nm sz cst, In (nm, TInt sz cst) flds -> goodSize sz = true.

Variable strict : bool.   (* constraints count as well *)
Definition typed (fs : amap value) : Prop :=
  forall nm sz cst z, In (nm, TInt sz cst) flds -> alookup (camel nm) fs = Some (VInt z) ->
    0 <= z < 2 ^ sz /\ (strict = true -> z = 0 \/ allowed r cst z).

Lemma assigned_is : forall k (v w : value) fs, alookup k (assign k v fs) = Some w -> w = v.
Proof.
  intros k v w. induction fs as [|[a b] fs IH]; intros H; cbn [assign alookup] in H; [discriminate|].
  destruct (String.eqb_spec k a) as [->|N]; cbn [alookup] in H.
  - rewrite String.eqb_refl in H. congruence.
  - destruct (String.eqb_spec k a); [congruence|]. auto.
Qed.
Lemma same_name : forall nm t nm' t', In (nm, t) flds -> In (nm', t') flds -> camel nm = camel nm' -> t = t'.
Proof.
  revert Hnd. clear. induction flds as [|[a b] l IH]; intros N nm t nm' t' I J E; [destruct I|]. cbn [map fst] in N. inversion N as [|? ? NI ND]; subst.
  destruct I as [I|I]; destruct J as [J|J].
  - congruence.
  - injection I as -> ->. exfalso. apply NI. rewrite E. apply (in_map (fun f => camel (fst f)) l (nm', t') J).
  - injection J as -> ->. exfalso. apply NI. rewrite <- E. apply (in_map (fun f => camel (fst f)) l (nm, t) I).
  - eapply IH; eauto.
Qed.
Lemma type_typed : forall nm t fs c v c', In (nm, t) flds -> okc c -> typed fs -> decType fs t c = Ok (v, c') ->
  typed (assign (camel nm) v fs).
Proof.
  intros nm t fs c v c' I O T H nm' sz cst z J L.
  destruct (String.eqb_spec (camel nm') (camel nm)) as [E|N].
  - pose proof (same_name _ _ _ _ J I E) as <-. rewrite E in L. apply assigned_is in L. subst v.
    pose proof (int_safe r True sz cst c (Hsize _ _ _ J) O) as S. cbn [GenDecode.decType GenDecode.decBase] in H. rewrite H in S.
    cbn in S. destruct S as (_ & x & E1 & B). injection E1 as ->. split; [exact B|].
    intros _. right. eapply int_allowed; eauto.
  - rewrite alookup_assign_other in L by auto. eapply T; eauto.
Qed.

Definition minv (m : member) : Prop := forall fs c fs' c', incl (fieldsM m) flds -> typed fs -> okc c ->
  decMember m fs c = Ok (fs', c') -> typed fs'.
Lemma members_inv : forall ms, Forall minv ms -> forall fs c fs' c', incl (flat_map fieldsM ms) flds -> typed fs -> okc c ->
  decMembers ms fs c = Ok (fs', c') -> typed fs'.
Proof.
  induction ms as [|m ms IH]; intros F fs c fs' c' I T O H; cbn [GenDecode.decMembers] in H.
  - injection H as <- _. auto.
  - apply bind_ok in H as ([fs1 c1] & H1 & H).
    assert (T1 : typed fs1).
    { apply (Forall_inv F fs c fs1 c1); auto. intros y Hy. apply I. cbn. apply in_or_app. auto. }
    apply (IH (Forall_inv_tail F) fs1 c1 fs' c'); auto.
    + intros y Hy. apply I. cbn. apply in_or_app. auto.
    + eapply member_okc; eauto.
Qed.
Lemma member_inv : forall m, minv m.
Proof.
  induction m as [nm t|u tag len cs IH| | |] using member_ind'; intros fs c fs' c' I T O H.
  - cbn [GenDecode.decMember] in H. apply bind_ok in H as ([v c1] & H1 & H). injection H as <- _.
    eapply type_typed; eauto. apply I. cbn. auto.
  - apply union_body in H as (c0 & c1 & x & O0 & H & OK); auto.
    destruct (decPick_in camel r dcall n cenv dat cs x cs fs c0) as [(k & ms & J & E)|E]; rewrite E in H.
    + assert (J' : In (UCase k ms) cs) by (apply in_app_or in J; tauto).
      rewrite Forall_forall in IH. apply (members_inv ms (IH _ J')) in H; auto.
      intros y Hy. apply I. cbn [fieldsM]. apply in_flat_map. exists (UCase k ms). auto.
    + injection H as <- _. auto.
  - cbn in H. destruct (0 <? blen c); [discriminate|]. injection H as <- _. auto.
  - discriminate.
  - cbn in H. injection H as <- _. auto.
Qed.
End Left.

(** Calls. *)
Lemma call_okc : forall m nm ce c v c', okc c -> decCall camel r m nm ce c = Ok (v, c') -> okc c'.
Proof.
  induction m as [|m IH]; intros nm ce c v c' O H; cbn [decCall] in H; destruct (Struct r nm) as [s|]; try discriminate;
    apply bind_ok in H as (ds & _ & H); apply bind_ok in H as (args & _ & H); [discriminate|].
  apply bind_ok in H as ([fs c1] & H & E). injection E as _ <-.
  eapply (members_okc (decCall camel r m) m (combine (scontexts s) args) c); eauto.
Qed.

(* ---------- calls that are only made on bytes ---------- *)

Definition byteb (z : Z) : bool := (0 <=? z) && (z <? 256).
Lemma bytesb_ok : forall c, forallb byteb c = true <-> all_bytes c.
Proof.
  intros c. unfold all_bytes. rewrite forallb_forall, Forall_forall. unfold is_byte, byteb.
  split; intros H x Hx; specialize (H x Hx); lia.
Qed.
Definition onBytes (dcall : string -> amap value -> bytes -> outcome (value * bytes)) (nm : string) (ce : amap value) (c : bytes) : outcome (value * bytes) :=
  if forallb byteb c then dcall nm ce c else stuck.
Lemma onBytes_ok : forall dcall nm ce c, all_bytes c -> onBytes dcall nm ce c = dcall nm ce c.
Proof. intros dcall nm ce c A. unfold onBytes. apply bytesb_ok in A. now rewrite A. Qed.
Lemma onBytes_some : forall dcall nm ce c v, onBytes dcall nm ce c = Ok v -> dcall nm ce c = Ok v.
Proof. intros dcall nm ce c v H. unfold onBytes in H. destruct (forallb byteb c); [auto|discriminate]. Qed.
Lemma onBytes_live : forall dcall nm ce c, onBytes dcall nm ce c <> stuck -> all_bytes c /\ onBytes dcall nm ce c = dcall nm ce c.
Proof.
  intros dcall nm ce c H. assert (A : all_bytes c).
  { apply bytesb_ok. unfold onBytes in H. destruct (forallb byteb c); [auto|congruence]. }
  split; auto. now apply onBytes_ok.
Qed.

Section Same.
Variable dcall : string -> amap value -> bytes -> outcome (value * bytes).
Variable n : nat.
Variable cenv : amap value.
Variable dat : bytes.
Notation d := (blen dat).
Hypothesis Hc : forall nm ce c v c', okc c -> dcall nm ce c = Ok (v, c') -> okc c'.
Notation g := (onBytes dcall).

Lemma bind_same : forall {A B} (o o' : outcome A) (k k' : A -> outcome B), o = o' -> (forall a, o' = Ok a -> k a = k' a) -> bind o k = bind o' k'.
Proof. intros A B o o' k k' -> H. destruct o'; cbn; auto. Qed.
Lemma base_same : forall t c, okc c -> decBase r g cenv d t c = decBase r dcall cenv d t c.
Proof. intros [] c O; auto. cbn [decBase]. apply onBytes_ok, O. Qed.
Lemma for_same : forall m t k c, okc c -> decFor r g cenv d m t k c = decFor r dcall cenv d m t k c.
Proof.
  induction m as [|m IH]; intros t k c O; cbn [decFor]; auto. destruct (k <=? 0); auto.
  apply bind_same; [now apply base_same|]. intros [v c1] E. rewrite IH; auto. eapply base_okc; eauto.
Qed.
Lemma while_same : forall m t c, okc c -> decWhile r g cenv d m t c = decWhile r dcall cenv d m t c.
Proof.
  induction m as [|m IH]; intros t c O; cbn [decWhile]; auto. destruct (blen c <=? 0); auto.
  apply bind_same; [now apply base_same|]. intros [v c1] E. rewrite IH; auto. eapply base_okc; eauto.
Qed.
Lemma within_same : forall {A} k c (b b' : bytes -> outcome (A * bytes)), okc c -> (forall c1, okc c1 -> b c1 = b' c1) -> decWithin k c b = decWithin k c b'.
Proof. intros A k c b b' O H. unfold decWithin. rewrite H by now apply okc_first. reflexivity. Qed.
Lemma leaving_same : forall {A} k c (b b' : bytes -> outcome (A * bytes)), okc c -> (forall c1, okc c1 -> b c1 = b' c1) -> decLeaving k c b = decLeaving k c b'.
Proof. intros A k c b b' O H. unfold decLeaving. rewrite (within_same _ c b b'); auto. Qed.
Lemma type_same : forall fs t c, okc c -> decType camel r g n cenv d fs t c = decType camel r dcall n cenv d fs t c.
Proof.
  intros fs t c O. destruct t as [| | | | |b i|b [[f|i]|]]; cbn [decType]; try (now apply base_same).
  - apply bind_same; auto. intros k _. now rewrite for_same.
  - apply bind_same; auto. intros x _. apply bind_same; auto. intros y _. destruct (_ || _); auto. now rewrite for_same.
  - apply bind_same; auto. intros k _. apply leaving_same; auto. intros c1 O1. now rewrite while_same.
  - now rewrite while_same.
Qed.
Definition msame (m : member) : Prop := forall fs c, okc c -> decMember camel r g n cenv d m fs c = decMember camel r dcall n cenv d m fs c.
Lemma members_same0 : forall ms, Forall msame ms -> forall fs c, okc c -> decMembers camel r g n cenv d ms fs c = decMembers camel r dcall n cenv d ms fs c.
Proof.
  induction ms as [|m ms IH]; intros F fs c O; cbn [decMembers]; auto.
  apply bind_same; [now apply (Forall_inv F)|]. intros [fs1 c1] E. apply (IH (Forall_inv_tail F)). eapply member_okc; eauto.
Qed.
Lemma member_same : forall m, msame m.
Proof.
  induction m as [nm t|u tag len cs IH| | |] using member_ind'; intros fs c O; auto.
  - cbn [decMember]. now rewrite type_same.
  - rewrite !decMember_union. cbn zeta.
    assert (B : forall c1, okc c1 -> (x <- refVal camel fs cenv tag ;; decPick camel r g n cenv dat cs x cs fs c1) =
                                    (x <- refVal camel fs cenv tag ;; decPick camel r dcall n cenv dat cs x cs fs c1)).
    { intros c1 O1. apply bind_same; auto. intros x _. rewrite !decPick_choice.
      destruct (choice r x cs cs) as [ms|] eqn:CH; auto. destruct (choice_in _ _ _ _ CH) as [l Ix].
      rewrite Forall_forall in IH. apply (members_same0 ms (IH _ Ix)); auto. }
    destruct len as [[f|i]|]; cbn [decConstr]; auto.
    + apply bind_same; auto. intros k _. now apply within_same.
    + apply bind_same; auto. intros k _. now apply leaving_same.
Qed.
Lemma members_same : forall ms fs c, okc c -> decMembers camel r g n cenv d ms fs c = decMembers camel r dcall n cenv d ms fs c.
Proof. intros ms. apply members_same0. apply Forall_forall. intros m _. apply member_same. Qed.
End Same.

(* ---------- lengths ---------- *)

(** The lengths of arrays are in known fields. *)
Definition counted (ctxs : list string) (k : known) (flds : list (string * type)) (t : type) : Prop :=
  forall b f, t = TVar b (Some (LRef f)) -> exists sz,
    (rscope f = "" /\ (In (rname f, sz) k \/ exists cst, In (rname f, TInt sz cst) flds)) \/
    (rscope f <> "" /\ ctxField r ctxs (rscope f) (rname f) = Some sz).
Lemma counted_known : forall ctxs k fl t, checkType r ctxs k t = true -> counted ctxs k fl t.
Proof.
  intros ctxs k fl t C b f ->. cbn [checkType] in C. apply andb_true_iff in C as [_ C].
  destruct (refWidth r ctxs k f) as [sz|] eqn:E; [|discriminate]. exists sz. unfold refWidth in E.
  destruct (String.eqb_spec (rscope f) ""); [left|right]; auto. split; auto. left. now apply alookup_some_in.
Qed.
Definition mcounted (m : member) : Prop := forall ctxs k fl, checkMember r ctxs k m = true -> incl (allFields m) fl ->
  forall nm t, In (nm, t) (allFields m) -> counted ctxs k fl t.
Lemma members_counted : forall ms, Forall mcounted ms -> forall ctxs k fl, checkMembers r ctxs k ms = true ->
  incl (flat_map allFields ms) fl -> forall nm t, In (nm, t) (flat_map allFields ms) -> counted ctxs k fl t.
Proof.
  induction ms as [|m ms IH]; intros F ctxs k fl C I nm t J; [destruct J|].
  cbn [checkMembers flat_map] in *. apply andb_true_iff in C as [C1 C2]. apply in_app_or in J as [J|J].
  - eapply (Forall_inv F); eauto. intros y Hy. apply I, in_or_app. auto.
  - pose proof (IH (Forall_inv_tail F) ctxs (addKnown k m) fl C2 ltac:(intros y Hy; apply I, in_or_app; auto) nm t J) as X.
    intros b f E. destruct (X b f E) as (sz & [[S [K|K]]|[S K]]); exists sz; [left|left|right]; auto.
    split; auto. destruct m as [nm' t'| | | |]; cbn [addKnown] in K; auto. destruct t'; auto. destruct K as [K|K]; auto.
    injection K as <- <-. right. eexists. apply I, in_or_app. left. cbn. auto.
Qed.
Lemma member_counted : forall m, mcounted m.
Proof.
  induction m as [nm t|u tag len cs IH| | |] using member_ind'; intros ctxs k fl C I nm' t' J; cbn [allFields] in J; try contradiction.
  - destruct J as [E|[]]. injection E as <- <-. now apply counted_known.
  - destruct (check_union _ _ _ _ _ _ _ C) as (_ & _ & CC). apply in_flat_map in J as ([l ms] & Ic & J).
    destruct (CC _ Ic) as [_ CM]. rewrite Forall_forall in IH. specialize (IH _ Ic). cbn [ucase_members] in *.
    eapply members_counted; eauto. intros y Hy. apply I. cbn [allFields]. apply in_flat_map. exists (UCase l ms). auto.
Qed.

Lemma s64_below : forall x, 0 <= x -> s64 x <= x.
Proof.
  intros x H. unfold s64. pose proof (Z.mod_le x two64 H ltac:(reflexivity)).
  destruct (x mod two64 <? two63); unfold two64 in *; lia.
Qed.

(** No length exceeds what its width allows. *)
Lemma count_below : forall (strict : bool) fs s most cenv, 0 <= most -> defines fs s -> checkStruct camel r s = true ->
  (if strict then countsWithin fs r most else countsBelow fs r most) ->
  tctxs camel r (scontexts s) cenv ->
  forall nm b f, In (nm, TVar b (Some (LRef f))) (flat_map allFields (members_of s)) ->
  forall g x, typed (flat_map allFields (members_of s)) strict g -> refVal camel g cenv f = Ok x -> s64 x <= most.
Proof.
  intros strict fs s most cenv M0 D CS CB TC nm b f I g x T H.
  pose proof (checked_members camel r s CS) as CM.
  assert (FM : Forall mcounted (members_of s)) by (apply Forall_forall; intros; apply member_counted).
  destruct (members_counted _ FM _ _ _ CM (fun y Hy => Hy) _ _ I b f eq_refl) as (sz & K).
  assert (CB' : countsWithin fs r most /\ (strict = false -> countsBelow fs r most)).
  { destruct strict; split; auto; [discriminate|]. intros s1 f1 b1 x1 D1 I1. destruct (CB s1 f1 b1 x1 D1 I1) as [B1 B2].
    split; auto. intros S1 sz1 l1 J1. left. eauto. }
  destruct CB' as [CW CB']. clear CB. destruct (CW s nm b f D I) as [B1 B2].
  unfold refVal in H. destruct K as [[S K]|[S K]].
  - rewrite S in H. cbn in H. destruct K as [[]|(cst & K)]. specialize (B1 S sz cst K).
    destruct (alookup (camel (rname f)) g) as [[z| | | | | | |]|] eqn:E; try discriminate. injection H as ->.
    destruct (T _ _ _ _ K E) as [B AL]. pose proof (s64_below x ltac:(lia)). destruct B1 as [B1|(l & -> & B1)]; [lia|].
    destruct strict.
    + destruct (AL eq_refl) as [->|AL']; [lia|]. specialize (B1 x (AL' l eq_refl)). lia.
    + destruct (CB' eq_refl s nm b f D I) as [B3 _]. specialize (B3 S _ _ K). lia.
  - destruct (String.eqb_spec (rscope f) "") as [E|_]; [contradiction|].
    unfold ctxField in K. destruct (memb (rscope f) (scontexts s)) eqn:M; [|discriminate]. apply memb_in in M.
    destruct (Context r (rscope f)) as [c|] eqn:EC; [|discriminate].
    destruct (findIntField (rname f) (cmembers c)) as [[sz' cst]| | |] eqn:EF; try discriminate. injection K as ->.
    destruct (TC _ M) as (v & Ev & ty & cf & -> & HT). destruct (HT _ EC _ _ _ EF) as (z & Ez & B).
    rewrite Ev in H. cbn [asFields bind] in H. rewrite Ez in H. injection H as ->.
    specialize (B2 S c sz cst eq_refl (findIntField_in _ _ _ _ EF)). pose proof (s64_below x ltac:(lia)). lia.
Qed.

(** Fresh structs. *)
Lemma blank_typed : forall strict s, (forall nm sz cst, In (nm, TInt sz cst) (flat_map allFields (members_of s)) -> goodSize sz = true) ->
  typed (flat_map allFields (members_of s)) strict (blank camel (Constant r) s).
Proof.
  intros strict s G nm sz cst z I H. specialize (G _ _ _ I). unfold blank in H.
  assert (Z0 : z = 0).
  { clear I G. induction (flat_map allFields (members_of s)) as [|[a t] l IH]; [discriminate|]. cbn [map alookup fst snd] in H.
    destruct (String.eqb (camel nm) (camel a)); auto. destruct t; cbn [blankOf] in H; congruence. }
  subst z. split; [|auto]. split; [lia|]. apply Z.pow_pos_nonneg; [lia|]. unfold goodSize in G. lia.
Qed.
Lemma blank_settled : forall s, settled camel r s (blank camel (Constant r) s).
Proof.
  intros s nm sz l z _ H. left. unfold blank in H. induction (flat_map allFields (members_of s)) as [|[a t] ll IH]; [discriminate|].
  cbn [map alookup fst snd] in H. destruct (String.eqb (camel nm) (camel a)); auto. destruct t; cbn [blankOf] in H; congruence.
Qed.
(** Receivers. *)
Lemma recv_typed : forall (strict : bool) s fs0, goStruct camel r s fs0 -> (strict = true -> settled camel r s fs0) -> NoDup (map (fun f => camel (fst f)) (flat_map allFields (members_of s))) ->
  typed (flat_map allFields (members_of s)) strict fs0.
Proof.
  intros strict s fs0 G ST N nm sz cst z I H. destruct (goStruct_lookup camel r s fs0 G N nm _ I) as (v & E & V).
  rewrite H in E. injection E as <-. destruct V as (z' & E & B). injection E as ->. split; [exact B|].
  intros X. destruct cst as [l|]; [|right; intros l; discriminate]. destruct (ST X _ _ _ _ I H) as [->|A]; auto.
  right. intros l' E'. injection E' as <-. exact A.
Qed.
End Inv.
