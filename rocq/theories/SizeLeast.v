(** Zeros are a message of the least length of a plain declaration. *)
From Coq Require Import ZArith String List Bool Lia.
From Coq Require Import ZifyBool ZifyNat.
From Verif Require Import Base Ast IntervalsModel InspectModel InspectSpec InspectProofs GoLang GenModel GenDecode GenCheck
  GenSim GenSimBody GenSimProg GenTerm WireSpec WireProofs PackageSpec PackageProofs PackageFacts GenSafe CostSpec CostDec CostBody CostInv CostProg
  SizeSpec SizeProofs.
Import ListNotations.
Open Scope string_scope.
Open Scope list_scope.
Open Scope Z_scope.

Definition zs (l : Z) : bytes := repeat 0 (Z.to_nat l).
Lemma zs_len : forall l, 0 <= l -> blen (zs l) = l.
Proof. intros l H. unfold blen, zs. rewrite repeat_length. lia. Qed.
Lemma zs_add : forall a b, 0 <= a -> 0 <= b -> zs (a + b) = zs a ++ zs b.
Proof. intros a b A B. unfold zs. rewrite Z2Nat.inj_add by auto. apply repeat_app. Qed.
Lemma be_zeros : forall n a, a = 0 -> fold_left (fun a x => a * 256 + x) (repeat 0 n) a = 0.
Proof. induction n as [|n IH]; intros a ->; [reflexivity|]. cbn [repeat fold_left]. apply IH. lia. Qed.
Lemma first_app : forall {A} (a b : list A), firstn (List.length a) (a ++ b) = a.
Proof. induction a as [|x a IH]; intros b; [reflexivity|]. cbn. now rewrite IH. Qed.
Lemma skip_app : forall {A} (a b : list A), skipn (List.length a) (a ++ b) = b.
Proof. induction a as [|x a IH]; intros b; [reflexivity|]. cbn. auto. Qed.
Lemma blen_two : forall {A} (a b : list A), blen (a ++ b) = blen a + blen b.
Proof. intros. unfold blen. rewrite app_length. lia. Qed.

Section Least.
Variable camel : string -> string.
Variable r : resolver.

Lemma int_zeros : forall sz cst tail, 0 <= sz / 8 -> (forall l, cst = Some l -> in_list (Constant r) l 0) ->
  decInt r sz cst (zs (sz / 8) ++ tail) = Ok (VInt 0, tail).
Proof.
  intros sz cst tail S C. unfold decInt. pose proof (blen_nonneg tail) as BT.
  rewrite blen_two, zs_len by auto. replace (sz / 8 + blen tail <? sz / 8) with false by lia.
  assert (L : List.length (zs (sz / 8)) = Z.to_nat (sz / 8)) by (unfold zs; apply repeat_length).
  rewrite <- L, first_app, skip_app. unfold be, zs. rewrite be_zeros by reflexivity.
  destruct cst as [l|]; [|reflexivity]. now rewrite (proj2 (inList_spec r 0 l) (C _ eq_refl)).
Qed.

Section Struct.
Variable N : string -> Prop.
Variable K : string -> span.
Variable s : struct.
Variable cenv : amap value.
(** Nested structs: some bound suffices. *)
Hypothesis Hcall : forall nm, N nm -> checkBase r (scontexts s) (TStruct nm) = true ->
  exists l h n0, K nm = Some (l, h) /\ 0 <= l /\
  forall m tail, (n0 <= m)%nat -> blen (zs l ++ tail) < two63 -> exists v, decCall camel r m nm cenv (zs l ++ tail) = Ok (v, tail).
Notation flds := (flat_map allFields (members_of s)).

Definition zeroed (fs : amap value) : Prop := forall nm sz cst, In (nm, TInt sz cst) flds -> alookup (camel nm) fs = Some (VInt 0).

Lemma base_least : forall t, plainT r N s t -> checkBase r (scontexts s) t = true ->
  exists l h n0, spanT r K s t = Some (l, h) /\ 0 <= l /\
  forall m d tail, (n0 <= m)%nat -> blen (zs l ++ tail) < two63 -> exists v, decBase r (decCall camel r m) cenv d t (zs l ++ tail) = Ok (v, tail) /\
    forall sz cst, t = TInt sz cst -> v = VInt 0.
Proof.
  intros t P C. destruct t as [sz cst| | | |nm|b i|b i]; cbn [checkBase] in C; try discriminate; cbn [spanT decBase].
  - exists (sz / 8), (Some (sz / 8)), 0%nat. assert (S : 0 <= sz / 8).
    { unfold checkInt, goodSize in C. apply Z.div_pos; lia. }
    split; [reflexivity|]. split; auto. intros m d tail _ _. exists (VInt 0). split; auto. now apply int_zeros.
  - exists 1, (Some 1), 0%nat. split; [reflexivity|]. split; [lia|]. intros m d tail _ _. exists (VInt 0). split; [|discriminate].
    apply (int_zeros 8 None tail); [apply Z.leb_le; reflexivity|discriminate].
  - exists 0, (Some 0), 0%nat. split; [reflexivity|]. split; [lia|]. intros m d tail _ _. eexists. split; [reflexivity|discriminate].
  - exists 1, None, 0%nat. split; [reflexivity|]. split; [lia|]. intros m d tail _ B. exists (VStr []). split; [|discriminate].
    unfold decNul. change (zs 1 ++ tail) with (0 :: tail) in *. cbn [indexByte]. cbn [Z.eqb]. change (0 <? 0) with false. cbn iota.
    change (s64 (0 + 1)) with 1. change (blen (0 :: tail)) with (blen ([0] ++ tail)). rewrite blen_two. change (blen [0]) with 1.
    pose proof (blen_nonneg tail). replace ((1 <? 0) || (1 + blen tail <? 1)) with false by lia. reflexivity.
  - cbn [plainT] in P. destruct (Hcall nm P C) as (l & h & n0 & E & L & H). exists l, h, n0. split; auto. split; auto.
    intros m d tail M B. destruct (H m tail M B) as [v Hv]. exists v. split; [auto|discriminate].
Qed.

Lemma for_least : forall t l n0, 0 <= l ->
  (forall m d tail, (n0 <= m)%nat -> blen (zs l ++ tail) < two63 -> exists v, decBase r (decCall camel r m) cenv d t (zs l ++ tail) = Ok (v, tail) /\
    forall sz cst, t = TInt sz cst -> v = VInt 0) ->
  forall k m d tail q, (n0 <= m)%nat -> blen (zs (Z.of_nat k * l) ++ tail) < two63 -> (k <= q)%nat ->
  exists vs, decFor r (decCall camel r m) cenv d q t (Z.of_nat k) (zs (Z.of_nat k * l) ++ tail) = Ok (vs, tail).
Proof.
  intros t l n0 L H. induction k as [|k IH]; intros m d tail q M B Q.
  - exists []. destruct q; reflexivity.
  - destruct q as [|q]; [lia|]. cbn [decFor]. replace (Z.of_nat (S k) <=? 0) with false by lia.
    replace (Z.of_nat (S k) * l) with (l + Z.of_nat k * l) in * by lia. rewrite zs_add in * by nia. rewrite <- app_assoc in *.
    destruct (H m d (zs (Z.of_nat k * l) ++ tail) M B) as (v & -> & _). cbn [bind]. replace (Z.of_nat (S k) - 1) with (Z.of_nat k) by lia.
    rewrite blen_two in B. pose proof (blen_nonneg (zs l)).
    destruct (IH m d tail q M ltac:(lia) ltac:(lia)) as [vs ->]. cbn [bind]. eauto.
Qed.

Lemma type_least : forall t k0, plainT r N s t -> checkType r (scontexts s) k0 t = true ->
  exists l h n0, spanT r K s t = Some (l, h) /\ 0 <= l /\
  forall m d fs tail, (n0 <= m)%nat -> zeroed fs -> blen (zs l ++ tail) < two63 ->
    exists v, decType camel r (decCall camel r m) m cenv d fs t (zs l ++ tail) = Ok (v, tail) /\
    forall sz cst, t = TInt sz cst -> v = VInt 0.
Proof.
  assert (BASE : forall t, plainT r N s t -> checkBase r (scontexts s) t = true ->
    exists l h n0, spanT r K s t = Some (l, h) /\ 0 <= l /\
    forall m d (fs : amap value) tail, (n0 <= m)%nat -> zeroed fs -> blen (zs l ++ tail) < two63 ->
    exists v, decBase r (decCall camel r m) cenv d t (zs l ++ tail) = Ok (v, tail) /\ forall sz cst, t = TInt sz cst -> v = VInt 0).
  { intros t P C. destruct (base_least t P C) as (l & h & n0 & E & L & H). exists l, h, n0. auto. }
  intros t k0 P C. destruct t as [sz cst| | | |nm|b i|b [[f|i]|]]; cbn [plainT] in P; try contradiction; cbn [decType].
  - apply (BASE (TInt sz cst) P C).
  - apply (BASE TChar I C).
  - apply (BASE TPtr I C).
  - apply (BASE TNul I C).
  - apply (BASE (TStruct nm) P C).
  - cbn [checkType] in C. apply andb_true_iff in C as [C G]. destruct (base_least b P C) as (l & h & n0 & E & L & H).
    destruct (count_ok r i G) as (k & Hk & KB). pose proof Hk as Hv. apply integerOf_value in Hv. cbn [spanT]. rewrite Hv, E.
    unfold times. destruct (Z.leb_spec k 0) as [K0|K0].
    + exists 0, (Some 0), 0%nat. split; [reflexivity|]. split; [lia|]. intros m d fs tail _ _ _. exists (VList []). split; [|discriminate].
      rewrite Hk. cbn [bind]. assert (k = 0) as -> by lia. destruct m; reflexivity.
    + exists (k * l), (option_map (Z.mul k) h), (Nat.max n0 (Z.to_nat k)). split; [reflexivity|]. split; [nia|].
      intros m d fs tail M _ B. rewrite Hk. cbn [bind].
      destruct (for_least b l n0 L H (Z.to_nat k) m d tail m ltac:(lia)) as [vs X]; [rewrite Z2Nat.id by lia; auto|lia|].
      rewrite Z2Nat.id in X by lia. rewrite X. cbn [bind]. exists (VList vs). split; [auto|discriminate].
  - cbn [checkType] in C. apply andb_true_iff in C as [C _]. destruct P as [SC LM]. cbn [spanT].
    destruct LM as (sz & cst & F & AZ). pose proof (field_in _ _ _ F) as J.
    assert (LO : fst (limit r s f) = 0).
    { unfold limit. rewrite SC. cbn [String.eqb]. rewrite F. destruct cst as [l|]; [|reflexivity]. cbn [endsOf fst].
      pose proof (least_le r sz l 0 (AZ _ eq_refl)). lia. }
    assert (U : exists h, between (limit r s f) (spanT r K s b) = Some (0, h)).
    { unfold between. rewrite LO. destruct (spanT r K s b) as [[l h]|]; eexists; reflexivity. }
    destruct U as [h U]. exists 0, h, 0%nat. split; auto. split; [lia|]. intros m d fs tail _ Z _. exists (VList []). split; [|discriminate].
    unfold refVal. rewrite SC. cbn [String.eqb]. rewrite (Z _ _ _ J). cbn [asInt bind].
    assert (TG : exists g, tipe camel r b = Ok g) by (destruct b; cbn in C |- *; try discriminate; eauto).
    destruct TG as [g ->]. cbn [bind]. change (s64 0) with 0. change ((0 <? 0) || (maxAlloc <? 0 * gsize g)) with false. cbn iota.
    destruct m; reflexivity.
Qed.
End Struct.
End Least.

Section Prog.
Variable camel : string -> string.
Variable os : nat -> orders.
Variable fs : list file.
Variable r : resolver.
Variable p : program.
Hypothesis PK : package camel os fs r p.

Lemma members_least : forall (N : string -> Prop) (K : string -> span) s cenv, In s (definedStructs fs) ->
  (forall nm, N nm -> checkBase r (scontexts s) (TStruct nm) = true ->
    exists l h n0, K nm = Some (l, h) /\ 0 <= l /\
    forall m tail, (n0 <= m)%nat -> blen (zs l ++ tail) < two63 -> exists v, decCall camel r m nm cenv (zs l ++ tail) = Ok (v, tail)) ->
  forall ms, incl (flat_map allFields ms) (flat_map allFields (members_of s)) ->
  (forall m, In m ms -> exists nm t, m = MField nm t /\ plainT r N s t) ->
  exists l h n0, spanMs r K s ms = Some (l, h) /\ 0 <= l /\
  forall m d g tail, (n0 <= m)%nat -> zeroed camel s g -> blen (zs l ++ tail) < two63 ->
    exists g', decMembers camel r (decCall camel r m) m cenv d ms g (zs l ++ tail) = Ok (g', tail).
Proof.
  intros N K s cenv I HC. induction ms as [|m0 ms IH]; intros IN P.
  - exists 0, (Some 0), 0%nat. split; [reflexivity|]. split; [lia|]. intros m d g tail _ _ _. exists g. reflexivity.
  - destruct (P m0 (or_introl eq_refl)) as (nm & t & -> & PT).
    assert (J : In (nm, t) (flat_map allFields (members_of s))) by (apply IN; cbn; auto).
    destruct (PackageProofs.struct_types camel os fs r p PK s I nm t J) as [k0 C].
    destruct (type_least camel r N K s cenv HC t k0 PT C) as (l1 & h1 & n1 & E1 & L1 & H1).
    destruct IH as (l2 & h2 & n2 & E2 & L2 & H2).
    { intros y Hy. apply IN. cbn. auto. }
    { intros m M. apply P. now right. }
    exists (l1 + l2), (both Z.add h1 h2), (Nat.max n1 n2). split.
    { cbn [spanMs fold_right spanM]. fold (spanMs r K s ms). now rewrite E1, E2. }
    split; [lia|]. intros m d g tail M Z B. rewrite zs_add in * by auto. rewrite <- app_assoc in *.
    cbn [decMembers decMember]. destruct (H1 m d g (zs l2 ++ tail) ltac:(lia) Z B) as (v & -> & V). cbn [bind].
    rewrite blen_two in B. pose proof (blen_nonneg (zs l1)).
    apply H2; [lia| |lia].
    intros nm' sz cst J'. rewrite alookup_assign. destruct (String.eqb_spec (camel nm') (camel nm)) as [E|E].
    + assert (t = TInt sz cst) as ->.
      { exact (same_name camel _ (struct_nodup camel os fs r p PK s I) nm t nm' _ J J' (eq_sym E)). }
      rewrite (Z _ _ _ J), (V _ _ eq_refl). reflexivity.
    + exact (Z _ _ _ J').
Qed.

Lemma blank_zeroed : forall s, In s (definedStructs fs) -> zeroed camel s (blank camel (Constant r) s).
Proof.
  intros s I nm sz cst J. pose proof (struct_nodup camel os fs r p PK s I) as ND. unfold blank.
  revert J ND. generalize (flat_map allFields (members_of s)). intros l. induction l as [|[a t] l IH]; intros J ND; [destruct J|].
  cbn [map fst snd alookup] in *. destruct J as [E|J].
  - injection E as -> ->. rewrite String.eqb_refl. reflexivity.
  - inversion ND as [|? ? NI ND']. subst. destruct (String.eqb_spec (camel nm) (camel a)) as [E|E]; [|auto].
    exfalso. apply NI. rewrite <- E. change (camel nm) with ((fun f : string * type => camel (fst f)) (nm, TInt sz cst)). now apply in_map.
Qed.

Lemma struct_least : forall k s cenv, In s (definedStructs fs) -> tctxs camel r (scontexts s) cenv -> map fst cenv = scontexts s -> plain r k s ->
  exists l h n0, spanOf r k s = Some (l, h) /\ 0 <= l /\
  forall m d g tail, (n0 <= m)%nat -> zeroed camel s g -> blen (zs l ++ tail) < two63 ->
    exists g', decMembers camel r (decCall camel r m) m cenv d (members_of s) g (zs l ++ tail) = Ok (g', tail).
Proof.
  induction k as [|k IH]; intros s cenv I T MF P.
  - apply (members_least (fun _ => False)); auto; [contradiction|apply incl_refl].
  - apply (members_least (plainIn r (S k))); auto; [|apply incl_refl]. intros nm PN C. cbn [plainIn spanIn] in *.
    destruct (Struct r nm) as [s'|] eqn:HS; [|contradiction]. cbn [checkBase] in C. rewrite HS in C. apply andb_true_iff in C as [X C].
    apply negb_true_iff in X. destruct (pk_res camel os fs r p PK nm s' HS X) as [_ I'].
    assert (SUB : forall x, In x (scontexts s') -> In x (scontexts s)).
    { intros x Hx. rewrite forallb_forall in C. specialize (C _ Hx). now apply memb_in. }
    destruct (ctxArgs_typed camel r (scontexts s) cenv (scontexts s') T SUB) as (args & HA & TA).
    assert (LA : List.length args = List.length (scontexts s')) by (unfold ctxArgs in HA; now apply mapM_len in HA).
    destruct (IH s' (combine (scontexts s') args) I' TA ltac:(now apply map_fst_combine) PN) as (l & h & n0 & E & L & H).
    exists l, h, (S n0). split; [exact E|]. split; [auto|]. intros m tail M B.
    destruct (program_struct camel r fs p (pk_gen camel os fs r p PK) (pk_checked _ _ _ _ _ PK) s' I') as (ds & f & ct & Hds & _).
    destruct m as [|m]; [lia|]. cbn [decCall]. rewrite HS, Hds. cbn [bind]. rewrite HA. cbn [bind].
    rewrite (zeros_blank camel r s' ds Hds).
    destruct (H m (blen (zs l ++ tail)) _ tail ltac:(lia) (blank_zeroed s' I') B) as [g' ->]. cbn [bind]. eauto.
Qed.

Theorem zeros_parse : forall k s args l h tail, plain r k s -> spanOf r k s = Some (l, h) ->
  validCall camel fs r s (blank camel (Constant r) s) (zs l ++ tail) args ->
  exists fs1, parses camel p s (blank camel (Constant r) s) (zs l ++ tail) args fs1 tail.
Proof.
  intros k s args l h tail P E VC. assert (I : In s (definedStructs fs)) by (apply defines_in, VC).
  pose proof (valid_calls camel os fs r p PK false _ _ _ _ VC ltac:(discriminate)) as CA.
  destruct (struct_least k s (combine (scontexts s) args) I) as (l' & h' & n0 & E' & L & H); auto; [apply CA|apply map_fst_combine; symmetry; apply CA|].
  rewrite E in E'. injection E' as <- <-.
  destruct (H n0 (blen (zs l ++ tail)) _ tail (le_n _) (blank_zeroed s I) (proj2 (ca_okc _ _ _ _ _ _ _ CA))) as [g' H'].
  exists g'. apply (parses_dec camel os fs r p PK s _ _ args VC). exists (S n0). exact H'.
Qed.
End Prog.
