(** Assignments to places inside of what a variable owns. *)
From Coq Require Import ZArith String List Bool Lia ZifyBool ZifyNat Permutation.
From Verif Require Import Base GoLang GoMem MemSim.
Import ListNotations.
Open Scope string_scope.
Open Scope list_scope.
Open Scope Z_scope.

Section Old.
Context {oldI : Old}.

Lemma nodup_app : forall {A} (a b : list A), NoDup (a ++ b) -> NoDup a /\ NoDup b /\ forall x, In x a -> ~ In x b.
Proof.
  induction a as [|x a IH]; cbn [app]; intros b N.
  - split; [constructor|]. split; [exact N|]. intros x [].
  - inversion N; subst. destruct (IH _ H2) as (A1 & A2 & A3). split.
    + constructor; auto. intros I. apply H1, in_or_app; auto.
    + split; auto. intros y [->|I] J; [apply H1, in_or_app; auto|]. eapply A3; eauto.
Qed.

Lemma nth_firstn : forall {A} (l : list A) k n, (k < n)%nat -> nth_error (firstn n l) k = nth_error l k.
Proof. induction l as [|a l IH]; intros k n L; destruct n; try lia; [now destruct k|]. destruct k; cbn; auto. apply IH. lia. Qed.
Lemma nth_skipn : forall {A} (l : list A) k n, nth_error (skipn n l) k = nth_error l (n + k).
Proof. induction l as [|a l IH]; intros k n; destruct n; cbn; auto. now destruct k. Qed.

Section Path.
Variable ro : loc -> Prop.
Variable self : hval.
Variable pl : platform.
Hypothesis wide : word pl = 8.
Variable types : amap (list (string * gtype)).
Notation envR := (envR ro self).
Notation heval := (heval pl types).
Notation hstore := (hstore pl types).

(** Places inside of what a variable owns. *)
Definition selfVar (G : ctx) (l : lval) : bool := match l with LVar x => isSelf G x | _ => false end.
Fixpoint okL (G : ctx) (l : lval) : bool :=
  match l with
  | LVar x => isOwner G x
  | LField l _ => okL G l
  | LIdx l (EVar i) => okL G l && isShr G i && negb (selfVar G l)
  | _ => false
  end.
Lemma okL_pure : forall G l, okL G l = true -> pureE G (lexpr l) = true.
Proof.
  induction l; cbn [okL lexpr pureE]; auto.
  - intros ->. reflexivity.
  - destruct i; try discriminate. intros H. apply andb_true_iff in H as [H _]. apply andb_true_iff in H as [H I]. cbn [pureE]. rewrite IHl, I; auto. apply orb_true_r.
Qed.

Lemma perm_in : forall (a b : list loc) x, Permutation a b -> In x a -> In x b.
Proof. intros a b x P I. eapply Permutation_in; eauto. Qed.

Lemma path : forall G l, okL G l = true -> forall H e he fp fz v0, envR H G e he fp fz -> NoDup fp -> (forall l, In l fp -> ~ ro l) ->
  eval types e (lexpr l) = Ok v0 ->
  exists hv0 fp0 rest, own H v0 hv0 fp0 /\ Permutation fp (fp0 ++ rest) /\
    (forall H1, agree (fun l => In l rest) H H1 -> agree ro H H1 -> heval H1 he (lexpr l) = Ok (hv0, H1)) /\
    (forall H1 v hv fp1 e1, agree (fun l => In l rest) H H1 -> agree ro H H1 -> own H1 v hv fp1 -> (forall l, In l fp1 -> ~ In l rest) ->
       store types e l v = Ok e1 -> (selfVar G l = true -> hv = hv0) ->
       exists H2 he1 fp', hstore H1 he l hv = Ok (H2, he1) /\ envR H2 G e1 he1 fp' fz /\ Permutation fp' (fp1 ++ rest) /\
         agree (fun l => ~ In l rest) H1 H2 /\ List.length H2 = List.length H1 /\ (hv = hv0 -> H2 = H1 /\ he1 = he)).
Proof.
  induction l; intros OL H e he fp fz v0 ER ND RO EV; cbn [okL] in OL; cbn [lexpr] in EV.
  - cbn [eval] in EV. destruct (alookup x e) as [w|] eqn:L; [|discriminate]. inversion EV; subst.
    apply owner_is in OL as (k & OL & OK). destruct (lookup_own _ _ _ _ _ _ _ _ ER _ _ _ OL OK L) as (hv & fp0 & rest & L1 & O & P & K). exists hv, fp0, rest. split; auto. split; auto. split.
    + intros H1 A B. cbn [lexpr GoMem.heval]. now rewrite L1.
    + intros H1 v hv1 fp1 e1 A B O1 D S SV. cbn [store GoMem.hstore] in *. rewrite L in S. rewrite L1. inversion S; subst.
      destruct (K H1 v hv1 fp1 A B O1) as (fp' & E' & P').
      { intros ->. apply SV. cbn [selfVar]. unfold isSelf. now rewrite OL. }
      exists H1, (hassign x hv1 he), fp'. split; auto. split; auto. split; auto.
      split; [now intros l0 _|]. split; auto. intros ->. split; auto. now apply hassign_same.
  - cbn [eval] in EV. destruct (eval types e (lexpr l)) as [w| | |] eqn:EL; try discriminate. cbn [bind] in EV. destruct w; try discriminate.
    destruct (alookup f fs) as [w|] eqn:L; [|discriminate]. inversion EV; subst.
    destruct (IHl OL _ _ _ _ _ _ ER ND RO EL) as (hv' & fp' & rest' & O' & P' & G' & K').
    destruct (own_struct_inv _ _ _ _ _ O') as (p & hfs & fpf & -> & -> & N & M & OS).
    pose proof L as L0. rewrite lookup_index in L. destruct (index f (map fst fs)) as [k|] eqn:IX; [|discriminate L].
    destruct (owns_split _ _ _ _ OS _ _ L) as (hv0 & fp0 & restf & N0 & O0 & P0 & K0).
    assert (LH : alookup f hfs = Some hv0) by (rewrite lookup_index, <- M, IX; exact N0).
    assert (PP : Permutation fp (fp0 ++ p :: restf ++ rest')).
    { rewrite P'. rewrite <- Permutation_middle. cbn [app]. apply perm_skip. rewrite P0. now rewrite app_assoc. }
    pose proof (Permutation_NoDup PP ND) as ND'. destruct (nodup_app _ _ ND') as (ND0 & NDr & DJ). inversion NDr as [|? ? NP NDr']; subst.
    destruct (nodup_app _ _ NDr') as (_ & _ & DJ2).
    exists hv0, fp0, (p :: restf ++ rest'). split; auto. split; auto. split.
    + intros H1 A B. cbn [lexpr GoMem.heval]. rewrite (G' H1); auto. { cbn [bind]. rewrite (A p) by now left. now rewrite N, LH. }
      intros l0 I. apply A. right. apply in_or_app. auto.
    + intros H1 v hv fp1 e1 A B O1 D S _. cbn [store GoMem.hstore] in *. rewrite EL in S. cbn [bind] in S. rewrite L0 in S.
      assert (A' : agree (fun l => In l rest') H H1) by (intros l0 I; apply A; right; apply in_or_app; auto).
      rewrite (G' H1 A' B). cbn [bind]. rewrite (A p) by now left. rewrite N, LH.
      set (H2 := hset p (OStruct ty (hassign f hv hfs)) H1).
      assert (NP1 : nth_error H1 p = Some (OStruct ty hfs)) by (rewrite A by (now left); exact N).
      destruct (K0 H1 v hv fp1) as (fpf' & OF & PF); auto. { intros l0 I. apply A. right. apply in_or_app. auto. }
      assert (NPF : ~ In p fpf').
      { intros I. apply (perm_in _ _ _ PF) in I. apply in_app_or in I as [I|I]; [apply (D _ I); now left|]. apply NP, in_or_app. auto. }
      assert (OV : own H2 (VStruct ty (assign f v fs)) (HPtr p) (p :: fpf')).
      { destruct (hassign_index f hv hfs) as [I1 I2]. destruct (hassign_index f v fs) as [J1 J2]. rewrite assign_hassign. econstructor.
        - unfold H2. eapply hset_at; eauto.
        - congruence.
        - rewrite J2, I2, <- M, IX. eapply owns_agree; eauto. intros l0 I. apply hset_other. intros ->. contradiction. }
      assert (RP : ~ ro p). { apply RO. rewrite PP. apply in_or_app. right. now left. }
      destruct (K' H2 (VStruct ty (assign f v fs)) (HPtr p) (p :: fpf') e1) as (H3 & he1 & fp' & S1 & E1 & P1 & _ & _ & Sm); auto.
      { intros l0 I. unfold H2. rewrite hset_other; [apply A'; auto|]. intros ->. apply NP, in_or_app. auto. }
      { intros l0 I. unfold H2. rewrite hset_other; [apply B; auto|]. intros ->. contradiction. }
      { intros l0 [<-|I] J; [apply NP, in_or_app; auto|]. apply (perm_in _ _ _ PF) in I. apply in_app_or in I as [I|I].
        - apply (D _ I). right. apply in_or_app. auto.
        - eapply DJ2; eauto. }
      destruct (Sm eq_refl) as [-> ->]. exists H2, he, fp'. split; auto. split; auto. split.
      { rewrite P1. cbn [app]. rewrite <- Permutation_middle. apply perm_skip. rewrite PF. now rewrite app_assoc. }
      split. { intros l0 I. apply hset_other. intros ->. apply I. now left. }
      split. { apply hset_length. }
      intros ->. split; auto. unfold H2, hset. apply updN_same. rewrite NP1. now rewrite (hassign_same _ _ _ LH).
  - destruct i as [|i| | | | | | | | | | | | | | | | | | | |]; try discriminate. apply andb_true_iff in OL as [OL NS]. apply andb_true_iff in OL as [OL MI]. apply shr_is in MI. apply negb_true_iff in NS.
    cbn [eval] in EV. destruct (eval types e (lexpr l)) as [w| | |] eqn:EL; try discriminate. cbn [bind] in EV.
    destruct (alookup i e) as [wi|] eqn:LI; [|discriminate]. cbn [bind] in EV.
    destruct (lookup_shr _ _ _ _ _ _ _ _ ER _ _ MI LI) as (hi & LHI & SI).
    destruct (IHl OL _ _ _ _ _ _ ER ND RO EL) as (hv' & fp' & rest' & O' & P' & G' & K').
    destruct w; try discriminate; destruct wi; try discriminate; [inversion O'|]. assert (HI0 : hi = HInt z) by (inversion SI; auto). subst hi.
    destruct (nthZ l0 z) as [w|] eqn:L; [|discriminate]. assert (W0 : w = v0) by congruence. subst w.
    pose proof L as LZ. unfold nthZ in L. destruct (z <? 0) eqn:ZN; [discriminate L|].
    destruct (own_list_inv _ _ _ _ O') as [(hvs & -> & OS)|(base & off & len & cap & ll & fpf & -> & -> & N & LC & BD & OS)].
    + destruct (owns_split _ _ _ _ OS _ _ L) as (hv0 & fp0 & restf & N0 & O0 & P0 & K0).
      assert (PP : Permutation fp (fp0 ++ restf ++ rest')) by (rewrite P', P0; now rewrite app_assoc).
      pose proof (Permutation_NoDup PP ND) as ND'. destruct (nodup_app _ _ ND') as (ND0 & NDr & DJ).
      destruct (nodup_app _ _ NDr) as (_ & _ & DJ2).
      assert (HN : nthZ hvs z = Some hv0) by (unfold nthZ; now rewrite ZN).
      exists hv0, fp0, (restf ++ rest'). split; auto. split; auto. split.
      * intros H1 A B. cbn [lexpr GoMem.heval]. rewrite (G' H1); auto. { cbn [bind]. rewrite LHI. cbn [bind]. now rewrite HN. }
        intros l1 I. apply A. apply in_or_app. auto.
      * intros H1 v hv fp1 e1 A B O1 D S _. cbn [store GoMem.hstore] in *. rewrite EL in S. cbn [bind eval] in S. rewrite LI in S. cbn [bind] in S. rewrite LZ in S.
        assert (A' : agree (fun l => In l rest') H H1) by (intros l1 I; apply A; apply in_or_app; auto).
        rewrite (G' H1 A' B). cbn [bind GoMem.heval]. rewrite LHI. cbn [bind]. rewrite HN.
        destruct (K0 H1 v hv fp1) as (fpf' & OF & PF); auto. { intros l1 I. apply A. apply in_or_app. auto. }
        destruct (K' H1 (VList (updN l0 (Z.to_nat z) v)) (HArr (updN hvs (Z.to_nat z) hv)) fpf' e1) as (H3 & he1 & fpn & S1 & E1 & P1 & AG & LN & Sm); auto.
        { constructor; auto. }
        { intros l1 I J. apply (perm_in _ _ _ PF) in I. apply in_app_or in I as [I|I]; [apply (D _ I); apply in_or_app; auto|]. eapply DJ2; eauto. }
        { intros C. congruence. }
        exists H3, he1, fpn. split; auto. split; auto. split; [rewrite P1, PF; now rewrite app_assoc|].
        split. { intros l1 I. apply AG. intros J. apply I, in_or_app. auto. }
        split; auto. intros ->. apply Sm. now rewrite (updN_same _ _ _ N0).
    + destruct (owns_split _ _ _ _ OS _ _ L) as (hv0 & fp0 & restf & N0 & O0 & P0 & K0).
      assert (PP : Permutation fp (fp0 ++ base :: restf ++ rest')).
      { rewrite P'. rewrite <- Permutation_middle. cbn [app]. apply perm_skip. rewrite P0. now rewrite app_assoc. }
      pose proof (Permutation_NoDup PP ND) as ND'. destruct (nodup_app _ _ ND') as (ND0 & NDr & DJ). inversion NDr as [|? ? NP NDr']; subst.
      destruct (nodup_app _ _ NDr') as (_ & _ & DJ2).
      assert (HN : nthZ (firstn len (skipn off ll)) z = Some hv0) by (unfold nthZ; now rewrite ZN).
      assert (ZL : (Z.to_nat z < len)%nat).
      { assert (Z.to_nat z < List.length (firstn len (skipn off ll)))%nat by (apply nth_error_Some; congruence). rewrite firstn_length in H0. lia. }
      exists hv0, fp0, (base :: restf ++ rest'). split; auto. split; auto. split.
      * intros H1 A B. cbn [lexpr GoMem.heval]. rewrite (G' H1); auto.
        { cbn [bind]. rewrite LHI. cbn [bind]. unfold elements. rewrite (A base) by now left. now rewrite N, HN. }
        intros l1 I. apply A. right. apply in_or_app. auto.
      * intros H1 v hv fp1 e1 A B O1 D S _. cbn [store GoMem.hstore] in *. rewrite EL in S. cbn [bind eval] in S. rewrite LI in S. cbn [bind] in S. rewrite LZ in S.
        assert (A' : agree (fun l => In l rest') H H1) by (intros l1 I; apply A; right; apply in_or_app; auto).
        rewrite (G' H1 A' B). cbn [bind GoMem.heval]. rewrite LHI. cbn [bind]. rewrite (A base) by now left. rewrite N.
        replace ((0 <=? z) && (z <? Z.of_nat len)) with true by lia.
        set (H2 := hset base (OArray (updN ll (off + Z.to_nat z) hv)) H1).
        assert (NP1 : nth_error H1 base = Some (OArray ll)) by (rewrite A by (now left); exact N).
        destruct (K0 H1 v hv fp1) as (fpf' & OF & PF); auto. { intros l1 I. apply A. right. apply in_or_app. auto. }
        assert (NPF : ~ In base fpf').
        { intros I. apply (perm_in _ _ _ PF) in I. apply in_app_or in I as [I|I]; [apply (D _ I); now left|]. apply NP, in_or_app. auto. }
        assert (UP : firstn len (skipn off (updN ll (off + Z.to_nat z) hv)) = updN (firstn len (skipn off ll)) (Z.to_nat z) hv).
        { clear. generalize (Z.to_nat z) as k. intros k. revert off ll. induction off as [|off IH]; intros ll; cbn [skipn Nat.add].
          - revert k ll. induction len as [|len IH]; intros k ll; [now destruct k|]. destruct ll; cbn [firstn updN]; [now destruct k|].
            destruct k; cbn [firstn updN]; auto. now rewrite IH.
          - destruct ll; cbn [updN skipn]; [now destruct len, k|]. apply IH. }
        assert (OV : own H2 (VList (updN l0 (Z.to_nat z) v)) (HSlice base off len cap) (base :: fpf')).
        { econstructor.
          - unfold H2. eapply hset_at; eauto.
          - auto.
          - now rewrite updN_length.
          - rewrite UP. eapply owns_agree; eauto. intros l1 I. apply hset_other. intros ->. contradiction. }
        assert (RP : ~ ro base). { apply RO. rewrite PP. apply in_or_app. right. now left. }
        destruct (K' H2 (VList (updN l0 (Z.to_nat z) v)) (HSlice base off len cap) (base :: fpf') e1) as (H3 & he1 & fp' & S1 & E1 & P1 & _ & _ & Sm); auto.
        { intros l1 I. unfold H2. rewrite hset_other; [apply A'; auto|]. intros ->. apply NP, in_or_app. auto. }
        { intros l1 I. unfold H2. rewrite hset_other; [apply B; auto|]. intros ->. contradiction. }
        { intros l1 [<-|I] J; [apply NP, in_or_app; auto|]. apply (perm_in _ _ _ PF) in I. apply in_app_or in I as [I|I].
          - apply (D _ I). right. apply in_or_app. auto.
          - eapply DJ2; eauto. }
        destruct (Sm eq_refl) as [-> ->]. exists H2, he, fp'. split; auto. split; auto. split.
        { rewrite P1. cbn [app]. rewrite <- Permutation_middle. apply perm_skip. rewrite PF. now rewrite app_assoc. }
        split. { intros l1 I. apply hset_other. intros ->. apply I. now left. }
        split. { apply hset_length. }
        intros ->. split; auto. unfold H2, hset. apply updN_same. rewrite NP1. f_equal. f_equal. symmetry. apply updN_same.
        rewrite nth_firstn, nth_skipn in N0 by auto. exact N0.
Qed.
End Path.
End Old.
