(** Property C98: an integer is its bytes, the most significant one first; an array can be cut. *)
From Coq Require Import ZArith String List Bool Lia ZifyBool ZifyNat.
From Verif Require Import Base Ast IntervalsModel InspectModel InspectSpec InspectProofs GoLang GenModel GenDecode GenCheck GenSim GenSimBody GenSimProg GenMono WireSpec WireProofs WireComplete WireFacts GenTerm FwdProofs
  PackageSpec PackageProofs PackageFacts PackageMore GenExamples GenWitness IndepSpec UnrollProofs P_Unroll SwapProofs.
Import ListNotations.
Open Scope string_scope.
Open Scope list_scope.
Open Scope Z_scope.

Lemma for_bytes : forall r dcall cenv d k m c, (k <= m)%nat -> decFor r dcall cenv d m (TInt 8 None) (Z.of_nat k) c =
  if blen c <? Z.of_nat k then Err "data too short" else Ok (map VInt (firstn k c), skipn k c).
Proof.
  intros r dcall cenv d. induction k as [|k IH]; intros m c L.
  - replace (blen c <? Z.of_nat 0) with false by (unfold blen; lia). destruct m; reflexivity.
  - destruct m as [|m]; [lia|]. cbn [decFor]. replace (Z.of_nat (S k) <=? 0) with false by lia. cbn [decBase]. unfold decInt. change (8 / 8) with 1.
    destruct c as [|x c].
    + change (blen (@nil Z) <? 1) with true. replace (blen (@nil Z) <? Z.of_nat (S k)) with true by (unfold blen; cbn [List.length]; lia). reflexivity.
    + replace (blen (x :: c) <? 1) with false by (unfold blen; cbn [List.length]; lia). change (Z.to_nat 1) with 1%nat. cbn [firstn skipn bind].
      replace (Z.of_nat (S k) - 1) with (Z.of_nat k) by lia. rewrite IH by lia.
      replace (blen (x :: c) <? Z.of_nat (S k)) with (blen c <? Z.of_nat k) by (unfold blen; cbn [List.length]; lia).
      destruct (blen c <? Z.of_nat k); reflexivity.
Qed.

(** C98. If one struct has an integer of [8 k] bits without a constraint where another has an array
    of [k] bytes, then both accept the same data, use up the same part of it, and report the same
    errors.  The bytes are the integer in big-endian order, and the other fields agree. *)
Theorem C98_bytes : forall camel os fs r p, package camel os fs r p ->
  forall s s' ms1 nm sz nm' i ms2, defines fs s -> defines fs s' -> scontexts s' = scontexts s ->
  members_of s = ms1 ++ [MField nm (TInt sz None)] ++ ms2 -> members_of s' = ms1 ++ [MField nm' (TFixed (TInt 8 None) i)] ++ ms2 ->
  int_value (Constant r) i = Some (sz / 8) ->
  forall data args, ctxValues camel r s args -> goBytes data ->
  let new := blank camel (Constant r) s in let new' := blank camel (Constant r) s' in
  let same (a a' : amap value) :=
    (forall x t, In (x, t) (flat_map allFields (ms1 ++ ms2)) -> alookup (camel x) a = alookup (camel x) a') /\
    exists x w, alookup (camel nm) a = Some (VInt x) /\ alookup (camel nm') a' = Some (VList (map VInt w)) /\ blen w = sz / 8 /\ bigEndian w x in
  (forall fs1 rest, parses camel p s new data args fs1 rest -> exists fs1', parses camel p s' new' data args fs1' rest /\ same fs1 fs1') /\
  (forall fs1' rest, parses camel p s' new' data args fs1' rest -> exists fs1, parses camel p s new data args fs1 rest /\ same fs1 fs1') /\
  (forall e, fails camel p s new data args e <-> fails camel p s' new' data args e) /\
  (forall m, panics camel p s new data args m <-> panics camel p s' new' data args m) /\
  (neverEnds camel p s new data args <-> neverEnds camel p s' new' data args).
Proof.
  intros camel os fs r p PK s s' ms1 nm sz nm' i ms2 DS DS' EC EM EM' EI data args VA VD new new' same.
  assert (C' : checkStruct camel r s' = true) by (eapply pk_check; eauto; now apply (defines_in fs)).
  refine (sw_same camel os fs r p PK s s' ms1 _ _ ms2 DS DS' EC EM EM' _
    (fun a a' => exists x w, alookup (camel nm) a = Some (VInt x) /\ alookup (camel nm') a' = Some (VList (map VInt w)) /\ blen w = sz / 8 /\ bigEndian w x)
    _ (Z.to_nat (sz / 8)) data args VA VD _).
  - intros m f I J E. assert (I' : In m (members_of s')) by (rewrite EM'; apply in_or_app; destruct I; [auto|right; now right]).
    destruct (struct_uses camel r s' C' m f I' J E) as (z & cst & K). exists (TInt z cst). rewrite EM', flat_map_app in K. cbn [app flat_map allFields] in K.
    apply in_app_or in K as [K|[K|K]]; [|discriminate K|]; apply in_or_app; auto.
  - intros a a' b b' H (x & w & A1 & A2 & A3). exists x, w.
    destruct (H (camel nm) (or_introl (or_introl eq_refl))) as [-> _]. destruct (H (camel nm') (or_intror (or_introl eq_refl))) as [_ ->]. auto.
  - intros n a a' c L AB AG H1 H2. cbn [decMembers decMember decType]. rewrite (proj2 (integerOf_value r i (sz / 8)) EI). cbn [decBase bind].
    assert (G : 0 < sz / 8).
    { assert (C : checkStruct camel r s = true) by (eapply pk_check; eauto; now apply (defines_in fs)).
      pose proof (checked_members camel r s C) as CM. rewrite EM in CM. destruct (checked_one _ _ _ _ _ _ CM) as [k CK]. cbn [checkMember checkType checkBase checkInt] in CK.
      unfold checkInt, goodSize in CK. assert (sz = 8 \/ sz = 16 \/ sz = 32 \/ sz = 64) as [->|[->|[->| ->]]] by lia; reflexivity. }
    set (k := sz / 8) in *. rewrite <- (Z2Nat.id k) at 1 by lia. rewrite for_bytes by auto. rewrite Z2Nat.id by lia. unfold decInt. fold k.
    destruct (blen c <? k) eqn:B; cbn [bind alike]; auto. split; auto.
    set (w := firstn (Z.to_nat k) c). split.
    + intros g N. rewrite !alookup_assign_other; auto; intros ->; apply N; [right|left]; now left.
    + exists (be w), w. rewrite !alookup_assign, !String.eqb_refl.
      specialize (H1 (camel nm) (or_introl eq_refl)). specialize (H2 (camel nm') (or_introl eq_refl)).
      destruct (alookup (camel nm) a); [|congruence]. destruct (alookup (camel nm') a'); [|congruence]. split; auto. split; auto. split.
      * unfold w, blen. rewrite firstn_length. unfold blen in B. lia.
      * apply bigEndian_be. unfold w. now apply all_bytes_firstn.
Qed.
Print Assumptions C98_bytes.

(** An array is its first elements and then the others. *)
Lemma for_more : forall r dcall cenv d t m k c, k <= Z.of_nat m -> decFor r dcall cenv d m t k c = decFor r dcall cenv d (Z.to_nat k) t k c.
Proof.
  intros r dcall cenv d t. induction m as [|m IH]; intros k c L.
  - replace (Z.to_nat k) with 0%nat by lia. reflexivity.
  - destruct (Z.to_nat k) as [|j] eqn:E; cbn [decFor].
    + replace (k <=? 0) with true by lia. reflexivity.
    + replace (k <=? 0) with false by lia. destruct (decBase _ _ _ _ t c) as [[v c1]| | |]; cbn [bind]; auto.
      rewrite IH by lia. now replace (Z.to_nat (k - 1)) with j by lia.
Qed.
Lemma for_cut : forall r dcall cenv d t j k m c, 0 <= k -> Z.of_nat j + k <= Z.of_nat m ->
  decFor r dcall cenv d m t (Z.of_nat j + k) c =
  ('(us, c1) <- decFor r dcall cenv d m t (Z.of_nat j) c ;; '(vs, c2) <- decFor r dcall cenv d m t k c1 ;; Ok (us ++ vs, c2)).
Proof.
  intros r dcall cenv d t. induction j as [|j IH]; intros k m c K L.
  - change (Z.of_nat 0 + k) with k. replace (decFor r dcall cenv d m t (Z.of_nat 0) c) with (Ok ([] : list value, c)) by (destruct m; reflexivity). cbn [bind].
    destruct (decFor r dcall cenv d m t k c) as [[vs c2]| | |]; reflexivity.
  - destruct m as [|m]; [lia|].
    replace (decFor r dcall cenv d (S m) t (Z.of_nat (S j) + k) c) with ('(v, c1) <- decBase r dcall cenv d t c ;; '(vs, c2) <- decFor r dcall cenv d m t (Z.of_nat j + k) c1 ;; Ok (v :: vs, c2))
      by (cbn [decFor]; replace (Z.of_nat (S j) + k <=? 0) with false by lia; now replace (Z.of_nat (S j) + k - 1) with (Z.of_nat j + k) by lia).
    replace (decFor r dcall cenv d (S m) t (Z.of_nat (S j)) c) with ('(v, c1) <- decBase r dcall cenv d t c ;; '(vs, c2) <- decFor r dcall cenv d m t (Z.of_nat j) c1 ;; Ok (v :: vs, c2))
      by (cbn [decFor]; replace (Z.of_nat (S j) <=? 0) with false by lia; now replace (Z.of_nat (S j) - 1) with (Z.of_nat j) by lia).
    destruct (decBase r dcall cenv d t c) as [[v c1]| | |]; cbn [bind]; auto. rewrite IH by lia.
    destruct (decFor r dcall cenv d m t (Z.of_nat j) c1) as [[us c2]| | |]; cbn [bind]; auto.
    rewrite (for_more r dcall cenv d t m k c2), (for_more r dcall cenv d t (S m) k c2) by lia.
    destruct (decFor r dcall cenv d (Z.to_nat k) t k c2) as [[vs c3]| | |]; reflexivity.
Qed.

(** C98, for arrays of anything.  If one struct has an array of [j + k] elements where another has an
    array of [j] and one of [k] elements, then both parse alike in the same way. *)
Theorem C98_cut : forall camel os fs r p, package camel os fs r p ->
  forall s s' ms1 b nm i nm1 i1 nm2 i2 ms2 j k, defines fs s -> defines fs s' -> scontexts s' = scontexts s ->
  members_of s = ms1 ++ [MField nm (TFixed b i)] ++ ms2 -> members_of s' = ms1 ++ [MField nm1 (TFixed b i1); MField nm2 (TFixed b i2)] ++ ms2 ->
  int_value (Constant r) i1 = Some j -> int_value (Constant r) i2 = Some k -> int_value (Constant r) i = Some (j + k) ->
  forall data args, ctxValues camel r s args -> goBytes data ->
  let new := blank camel (Constant r) s in let new' := blank camel (Constant r) s' in
  let same (a a' : amap value) :=
    (forall x t, In (x, t) (flat_map allFields (ms1 ++ ms2)) -> alookup (camel x) a = alookup (camel x) a') /\
    exists us vs, alookup (camel nm) a = Some (VList (us ++ vs)) /\ alookup (camel nm1) a' = Some (VList us) /\ alookup (camel nm2) a' = Some (VList vs) /\
      blen us = j /\ blen vs = k in
  (forall fs1 rest, parses camel p s new data args fs1 rest -> exists fs1', parses camel p s' new' data args fs1' rest /\ same fs1 fs1') /\
  (forall fs1' rest, parses camel p s' new' data args fs1' rest -> exists fs1, parses camel p s new data args fs1 rest /\ same fs1 fs1') /\
  (forall e, fails camel p s new data args e <-> fails camel p s' new' data args e) /\
  (forall m, panics camel p s new data args m <-> panics camel p s' new' data args m) /\
  (neverEnds camel p s new data args <-> neverEnds camel p s' new' data args).
Proof.
  intros camel os fs r p PK s s' ms1 b nm i nm1 i1 nm2 i2 ms2 j k DS DS' EC EM EM' EI1 EI2 EI data args VA VD new new' same.
  assert (C : checkStruct camel r s = true) by (eapply pk_check; eauto; now apply (defines_in fs)).
  assert (C' : checkStruct camel r s' = true) by (eapply pk_check; eauto; now apply (defines_in fs)).
  assert (ND : camel nm1 <> camel nm2).
  { pose proof (struct_nodup camel os fs r p PK s' (proj1 (defines_in fs s') DS')) as D. rewrite EM', flat_map_app, map_app in D.
    apply NoDup_app_r in D. cbn [app flat_map allFields map fst] in D. inversion D as [|? ? N D']; subst. intros E. apply N. left. now symmetry. }
  assert (G : 0 <= j /\ 0 <= k).
  { pose proof (checked_members camel r s' C') as CM. rewrite EM' in CM. split.
    - destruct (checked_one r _ (MField nm1 (TFixed b i1)) (MField nm2 (TFixed b i2) :: ms2) ms1 _ CM) as [e CK]. cbn [checkMember checkType] in CK. unfold goodCount in CK. rewrite EI1 in CK. lia.
    - change (ms1 ++ [MField nm1 (TFixed b i1); MField nm2 (TFixed b i2)] ++ ms2) with (ms1 ++ [MField nm1 (TFixed b i1)] ++ [MField nm2 (TFixed b i2)] ++ ms2) in CM. rewrite app_assoc in CM.
      destruct (checked_one r _ (MField nm2 (TFixed b i2)) ms2 (ms1 ++ [MField nm1 (TFixed b i1)]) _ CM) as [e CK]. cbn [checkMember checkType] in CK. unfold goodCount in CK. rewrite EI2 in CK. lia. }
  refine (sw_same camel os fs r p PK s s' ms1 _ _ ms2 DS DS' EC EM EM' _
    (fun a a' => exists us vs, alookup (camel nm) a = Some (VList (us ++ vs)) /\ alookup (camel nm1) a' = Some (VList us) /\ alookup (camel nm2) a' = Some (VList vs) /\
      blen us = j /\ blen vs = k)
    _ (Z.to_nat (j + k)) data args VA VD _).
  - intros m f I J E. assert (I' : In m (members_of s')) by (rewrite EM'; apply in_or_app; destruct I; [auto|right; right; now right]).
    destruct (struct_uses camel r s' C' m f I' J E) as (z & cst & K). exists (TInt z cst). rewrite EM', flat_map_app in K. cbn [app flat_map allFields] in K.
    apply in_app_or in K as [K|[K|[K|K]]]; [|discriminate K|discriminate K|]; apply in_or_app; auto.
  - intros a a' b1 b' H (us & vs & A1 & A2 & A3 & A4). exists us, vs.
    destruct (H (camel nm) (or_introl (or_introl eq_refl))) as [-> _]. destruct (H (camel nm1) (or_intror (or_introl eq_refl))) as [_ ->].
    destruct (H (camel nm2) (or_intror (or_intror (or_introl eq_refl)))) as [_ ->]. auto.
  - intros n a a' c L AB AG H1 H2. cbn [decMembers decMember decType].
    rewrite (proj2 (integerOf_value r i (j + k)) EI), (proj2 (integerOf_value r i1 j) EI1). cbn [bind].
    pose proof (for_cut r (decCall camel r n) (contextsOf s args) (blen data) b (Z.to_nat j) k n c) as FC. rewrite Z2Nat.id in FC by lia. rewrite FC by lia. clear FC.
    pose proof (for_count r (decCall camel r n) (contextsOf s args) data b n) as CT.
    destruct (decFor r (decCall camel r n) (contextsOf s args) (blen data) n b j c) as [[us c1]| | |] eqn:F1; cbn [bind alike]; auto.
    rewrite (proj2 (integerOf_value r i2 k) EI2). cbn [bind].
    destruct (decFor r (decCall camel r n) (contextsOf s args) (blen data) n b k c1) as [[vs c2]| | |] eqn:F2; cbn [bind alike]; auto.
    split; auto. split.
    + intros g N. rewrite !alookup_assign_other; auto; intros ->; apply N; first [left; now left|right; now left|right; right; now left].
    + exists us, vs. apply CT in F1; [|lia]. apply CT in F2; [|lia].
      specialize (H1 (camel nm) (or_introl eq_refl)). pose proof (H2 (camel nm1) (or_introl eq_refl)) as H3. pose proof (H2 (camel nm2) (or_intror (or_introl eq_refl))) as H4.
      rewrite (alookup_assign_other (camel nm2) (camel nm1)) by auto. rewrite !alookup_assign, !String.eqb_refl.
      replace (camel nm2 =? camel nm1)%string with false by (symmetry; apply String.eqb_neq; auto).
      destruct (alookup (camel nm) a); [|congruence]. destruct (alookup (camel nm1) a'); [|congruence]. destruct (alookup (camel nm2) a'); [|congruence]. auto.
Qed.
Print Assumptions C98_cut.

(** [struct head { u8 k; u32 id; u8 ys[k]; } struct raw { u8 k; u8 id[4]; u8 ys[k]; }]. *)
Definition headS := mkStruct "head" [] (Some [u8 "k"; MField "id" (TInt 32 None); ysM]).
Definition rawS := mkStruct "raw" [] (Some [u8 "k"; MField "id" (TFixed (TInt 8 None) (ILit 4)); ysM]).
Notation hr := (one [headS; rawS]).
Lemma head_package : package camelX osX hr (theRes hr) (theProg hr).
Proof. apply package_of; vm_compute; reflexivity. Qed.
Example C98_case : package camelX osX hr (theRes hr) (theProg hr) /\ defines hr headS /\ defines hr rawS /\
  members_of headS = [u8 "k"] ++ [MField "id" (TInt 32 None)] ++ [ysM] /\ members_of rawS = [u8 "k"] ++ [MField "id" (TFixed (TInt 8 None) (ILit 4))] ++ [ysM] /\
  int_value (Constant (theRes hr)) (ILit 4) = Some (32 / 8) /\
  parses camelX (theProg hr) headS (blank camelX (Constant (theRes hr)) headS) [1; 0; 2; 7; 8; 9; 5] [] [("K", VInt 1); ("Id", VInt 132872); ("Ys", VList [VInt 9])] [5] /\
  parses camelX (theProg hr) rawS (blank camelX (Constant (theRes hr)) rawS) [1; 0; 2; 7; 8; 9; 5] []
    [("K", VInt 1); ("Id", VList [VInt 0; VInt 2; VInt 7; VInt 8]); ("Ys", VList [VInt 9])] [5].
Proof.
  assert (G : goBytes [1; 0; 2; 7; 8; 9; 5]) by (apply bytes_ok; vm_compute; reflexivity).
  assert (V : forall s, In s [headS; rawS] -> validCall camelX hr (theRes hr) s (blank camelX (Constant (theRes hr)) s) [1; 0; 2; 7; 8; 9; 5] []).
  { intros s I. apply (fresh_call [headS; rawS] s); [vm_compute; reflexivity|exact I|destruct I as [<-|[<-|[]]]; reflexivity|destruct I as [<-|[<-|[]]]; reflexivity|exact G]. }
  split; [exact head_package|]. split; [apply (V headS); cbn; auto|]. split; [apply (V rawS); cbn; auto|]. split; [reflexivity|]. split; [reflexivity|]. split; [reflexivity|]. split.
  - apply (parses_dec camelX osX _ _ _ head_package _ _ _ _ (V headS (or_introl eq_refl))). exists 9%nat. vm_compute. reflexivity.
  - apply (parses_dec camelX osX _ _ _ head_package _ _ _ _ (V rawS (or_intror (or_introl eq_refl)))). exists 9%nat. vm_compute. reflexivity.
Qed.

(** [struct six { u8 k; struct pair ps[3]; u8 ys[k]; } struct two { u8 k; struct pair a[1]; struct pair b[2]; u8 ys[k]; }]. *)
Definition pairS := mkStruct "pair" [] (Some [u8 "x"; u8 "y"]).
Definition sixS := mkStruct "six" [] (Some [u8 "k"; MField "ps" (TFixed (TStruct "pair") (ILit 3)); ysM]).
Definition twoS := mkStruct "two" [] (Some [u8 "k"; MField "a" (TFixed (TStruct "pair") (ILit 1)); MField "b" (TFixed (TStruct "pair") (ILit 2)); ysM]).
Notation st := (one [pairS; sixS; twoS]).
Lemma six_package : package camelX osX st (theRes st) (theProg st).
Proof. apply package_of; vm_compute; reflexivity. Qed.
Example C98_cut_case : package camelX osX st (theRes st) (theProg st) /\ defines st sixS /\ defines st twoS /\
  members_of sixS = [u8 "k"] ++ [MField "ps" (TFixed (TStruct "pair") (ILit 3))] ++ [ysM] /\
  members_of twoS = [u8 "k"] ++ [MField "a" (TFixed (TStruct "pair") (ILit 1)); MField "b" (TFixed (TStruct "pair") (ILit 2))] ++ [ysM] /\
  int_value (Constant (theRes st)) (ILit 3) = Some (1 + 2) /\
  exists v1 v2 v3,
  parses camelX (theProg st) sixS (blank camelX (Constant (theRes st)) sixS) [1; 1; 2; 3; 4; 5; 6; 9; 5] [] [("K", VInt 1); ("Ps", VList [v1; v2; v3]); ("Ys", VList [VInt 9])] [5] /\
  parses camelX (theProg st) twoS (blank camelX (Constant (theRes st)) twoS) [1; 1; 2; 3; 4; 5; 6; 9; 5] []
    [("K", VInt 1); ("A", VList [v1]); ("B", VList [v2; v3]); ("Ys", VList [VInt 9])] [5].
Proof.
  assert (G : goBytes [1; 1; 2; 3; 4; 5; 6; 9; 5]) by (apply bytes_ok; vm_compute; reflexivity).
  assert (V : forall s, In s [sixS; twoS] -> validCall camelX st (theRes st) s (blank camelX (Constant (theRes st)) s) [1; 1; 2; 3; 4; 5; 6; 9; 5] []).
  { intros s I. apply (fresh_call [pairS; sixS; twoS] s); [vm_compute; reflexivity|right; exact I|destruct I as [<-|[<-|[]]]; reflexivity|destruct I as [<-|[<-|[]]]; reflexivity|exact G]. }
  split; [exact six_package|]. split; [apply (V sixS); cbn; auto|]. split; [apply (V twoS); cbn; auto|]. split; [reflexivity|]. split; [reflexivity|]. split; [reflexivity|].
  do 3 eexists. split.
  - apply (parses_dec camelX osX _ _ _ six_package _ _ _ _ (V sixS (or_introl eq_refl))). exists 9%nat. vm_compute. reflexivity.
  - apply (parses_dec camelX osX _ _ _ six_package _ _ _ _ (V twoS (or_intror (or_introl eq_refl)))). exists 9%nat. vm_compute. reflexivity.
Qed.
