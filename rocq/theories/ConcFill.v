(** The loop that appends elements until the data ends, run by a goroutine. *)
From Coq Require Import ZArith String List Bool Lia ZifyBool ZifyNat Permutation.
From Verif Require Import Base GoLang GenSim GoMem MemSim MemPath MemExec MemStep MemFill GoConc ConcAlone ConcSafe ConcStep ConcExec.
Import ListNotations.
Open Scope string_scope.
Open Scope list_scope.
Open Scope Z_scope.

Section Old.
Context {oldI : Old}.

Section Fill.
Variable ro : loc -> Prop.
Variable self : hval.
Variable pl : platform.
Hypothesis wide : word pl = 8.
Variable types : amap (list (string * gtype)).
Variable Post : list loc -> heap -> hres -> Prop.
Variable call : callfun.
Variable tcall : tcallfun.
Variable n : nat.
Notation envR := (envR ro self).
Notation good := (good ro self).
Notation eval := (eval types).
Notation store := (store types).
Notation exec := (exec types call n).
Notation execs := (execs types call n).
Notation heval := (heval pl types).
Notation hstore := (hstore pl types).
Notation safe := (safe ro pl types Post).
Notation later := (later ro).
Notation stable := (stable ro).
Notation texec := (texec tcall n).
Notation texecs := (texecs tcall n).
Notation tblock := (tblock tcall n).
Notation simB := (ConcExec.simB ro self pl types Post call tcall n).
Notation goesOnK := (goesOnK ro self pl types Post).
Variable G : ctx.
Variable g : gtype.
Variable r f x : string.
Variable c : expr.
Variable body : list stmt.
Variable d : ctx.
Hypothesis RO : isOwner G r = true.
Hypothesis RX : r <> x.
Hypothesis PC : pureE G c = true.
Hypothesis SB : simB ((x, KMine) :: freeze G) body (d ++ (x, KMine) :: freeze G).
Hypothesis WD : warm d.
Hypothesis ND : ~ In x (map fst d).
Hypothesis NR : ~ In r (map fst d).
Notation L := (L r f).
Notation LE := (LE r f).
Notation W := (W g r f x body).
Notation ready := (ready pl types r f).
Notation store_field := (store_field types r f).
Notation hstore_field := (hstore_field pl types r f).
Notation heval_field := (heval_field pl types r f).
Notation eval_field := (eval_field types r f).

Lemma okL_L : okL G L = true.
Proof. exact RO. Qed.
Lemma pure_LE : pureE G LE = true.
Proof. unfold MemFill.LE. cbn [pureE]. now rewrite RO. Qed.

Lemma fill_step : forall F H e he fp fz e' rr k, good H G e he fp fz -> frame F fp H -> ready H e he -> block types call n W e = (e', rr) -> normal rr ->
  (forall H' he' hr fp', good H' G e' he' fp' fz -> later F H fp H' fp' -> resR ro H' rr hr -> (rr = SNext -> ready H' e' he') -> safe (k he' hr) (fp' ++ F) H') ->
  safe (tblock W he k) (fp ++ F) H.
Proof.
  intros F H e he fp fz e' rr k GD FRM (vs & b & off & len & cap & EL & HL) E N KK. pose proof GD as [ER NDf ROf IN].
  destruct (envR_length _ _ _ _ _ _ _ _ ER) as [LN1 LN2].
  assert (BD : forall l, In l fp -> (l < List.length H)%nat) by (apply (envR_bound _ _ _ _ _ _ _ _ ER)).
  unfold block, MemFill.W in E. rewrite execs_cons in E. cbn [GoLang.exec] in E. rewrite execs_app in E.
  destruct (execs body ((x, zero g) :: e)) as [e2 r2] eqn:EB.
  destruct (freeze_env _ _ _ _ _ _ _ _ ER) as (fz' & EF & TH).
  assert (GF : good H ((x, KMine) :: freeze G) ((x, zero g) :: e) ((x, hzero g) :: he) [] fz').
  { constructor; auto. - change (@nil loc) with (@nil loc ++ []). apply envR_own; auto; [discriminate|]. apply zero_own. - constructor. }
  assert (N2 : normal r2) by (destruct r2; try exact I; inversion E; subst; contradiction).
  unfold ConcAlone.tblock, MemFill.W. rewrite texecs_cons. cbn [GoConc.texec].
  change (fp ++ F) with ([] ++ (fp ++ F)).
  eapply SB; [exact GF| |exact EB|exact N2|].
  { intros l I. split; [|intros []]. apply in_app_or in I as [I|I]; [auto|]. now apply FRM. }
  intros H2_ he2 hr2 fp2 d2 WD2 GD2_ X2_ R2_ DD.
  assert (GOAL : forall H2, stable (fp2 ++ (fp ++ F)) H2_ H2 -> good H2 (d2 ++ (x, KMine) :: freeze G) e2 he2 fp2 fz' /\ later (fp ++ F) H [] H2 fp2).
  { intros H2 ST. split; [eapply good_stable; eauto|]. eapply later_trans; eauto. now apply stable_later. }
  destruct r2; try contradiction; destruct hr2; try contradiction.
  - (* the element is complete *)
    cbn [andThen GoConc.texecs GoConc.texec]. intros H2 ST2.
    destruct (GOAL _ ST2) as [GD2 X2]. clear GOAL R2_.
    assert (AG : agree (fun l => In l fp) H H2).
    { destruct X2 as (_ & X & _). intros l I. apply X. left. apply in_or_app. auto. }
    destruct X2 as (X2a & X2b & X2c).
    assert (FR : forall l, In l fp2 -> (List.length H <= l)%nat) by (intros l I; destruct (X2c _ I) as [[]|]; auto).
    assert (INH : forall l, ro l -> (l < List.length H)%nat) by exact IN.
    specialize (DD eq_refl). apply app_inv_tail in DD. subst d2. clear WD2.
    destruct GD2 as [ER2 ND2 RO2 IN2]. destruct (envR_names _ _ _ _ _ _ _ _ ER2) as [NM1 NM2].
    destruct (envR_length _ _ _ _ _ _ _ _ ER2) as [LL1 LL2]. rewrite app_length in LL2. cbn [List.length] in LL2. unfold freeze in LL2. rewrite map_length in LL2.
    destruct (envR_drop _ _ _ _ _ _ _ _ _ WD ER2) as (fa & fb & -> & ER3).
    remember (skipn (List.length d) e2) as e2' eqn:He2. remember (skipn (List.length d) he2) as he2' eqn:Hh2.
    assert (I3 : exists w hw e3 he3 fw fc, e2' = (x, w) :: e3 /\ he2' = (x, hw) :: he3 /\ fb = fw ++ fc /\ own H2 w hw fw /\ envR H2 (freeze G) e3 he3 fc fz').
    { inversion ER3; subst; try discriminate. eauto 15. }
    destruct I3 as (w & hw & e3 & he3 & fw & fc & Ea & Eb & -> & OW & ER4). rewrite Ea in He2. rewrite Eb in Hh2. clear ER3 Ea Eb e2' he2'.
    destruct (TH _ _ _ _ AG ER4) as (-> & ER5 & LK). rewrite app_nil_r in *. destruct (LK r RO) as [LK1 LK2].
    assert (D2 : e2 = firstn (List.length d) e2 ++ (x, w) :: e3) by (rewrite He2; symmetry; apply firstn_skipn).
    assert (D2h : he2 = firstn (List.length d) he2 ++ (x, hw) :: he3) by (rewrite Hh2; symmetry; apply firstn_skipn).
    assert (PN : map fst (firstn (List.length d) e2) = map fst d).
    { rewrite <- firstn_map, NM1, map_app, firstn_app, map_length, Nat.sub_diag, app_nil_r, <- (map_length fst d). apply firstn_all. }
    assert (PNh : map fst (firstn (List.length d) he2) = map fst d).
    { rewrite <- firstn_map, NM2, map_app, firstn_app, map_length, Nat.sub_diag, app_nil_r, <- (map_length fst d). apply firstn_all. }
    set (pre := firstn (List.length d) e2) in *. set (hpre := firstn (List.length d) he2) in *. clearbody pre hpre. clear He2 Hh2 NM1 NM2.
    assert (R1 : alookup r e2 = alookup r e).
    { rewrite D2, alookup_app_notin by (rewrite PN; auto). cbn [alookup]. destruct (String.eqb_spec r x); [contradiction|exact LK1]. }
    assert (R1h : alookup r he2 = alookup r he3).
    { rewrite D2h, alookup_app_notin by (rewrite PNh; auto). cbn [alookup]. destruct (String.eqb_spec r x); [contradiction|reflexivity]. }
    assert (XL : alookup x e2 = Some w).
    { rewrite D2, alookup_app_notin by (rewrite PN; auto). cbn [alookup]. now rewrite String.eqb_refl. }
    assert (XLh : alookup x he2 = Some hw).
    { rewrite D2h, alookup_app_notin by (rewrite PNh; auto). cbn [alookup]. now rewrite String.eqb_refl. }
    (* the value machine *)
    cbn [GoLang.execs GoLang.exec] in E.
    assert (EA : eval e2 (EAppend LE (EVar x)) = Ok (VList (vs ++ [w]))).
    { change (eval e2 (EAppend LE (EVar x))) with (v <- eval e2 LE ;; w <- eval e2 (EVar x) ;; match v with VList l => Ok (VList (l ++ [w])) | VNil => Ok (VList [w]) | _ => stuck end).
      rewrite (eval_field _ _ R1), EL. cbn [bind GoLang.eval]. rewrite XL. reflexivity. }
    rewrite EA in E. cbn [lift] in E.
    destruct (store e2 L (VList (vs ++ [w]))) as [e4| | |] eqn:ST; cbn [lift] in E; try (inversion E; subst; contradiction).
    inversion E; subst e' rr. clear E.
    destruct (store_field _ _ _ ST) as (u & -> & EV4 & SF). clear EV4.
    assert (LV : leave e (assign r u e2) = assign r u e3).
    { rewrite D2, assign_app_notin by (rewrite PN; auto). rewrite assign_push by auto.
      change (pre ++ (x, w) :: assign r u e3) with (pre ++ [(x, w)] ++ assign r u e3). rewrite app_assoc. apply leave_app.
      rewrite assign_len. destruct (envR_length _ _ _ _ _ _ _ _ ER5). lia. }
    rewrite LV in KK. pose proof (SF e3 (eq_trans LK1 (eq_sym R1))) as ST3. destruct (store_field _ _ _ ST3) as (u' & EU & EV3 & _). clear EU u' SF.
    (* the other *)
    destruct (path ro self pl types G L okL_L _ _ _ _ _ _ ER NDf ROf EL) as (hv0 & fp0 & rest & O0 & P & EV0 & _).
    assert (A1 : hv0 = HSlice b off len cap).
    { assert (Q : heval H he (lexpr L) = Ok (hv0, H)) by (apply EV0; now intros l _). change (lexpr L) with LE in Q. congruence. }
    subst hv0.
    assert (AGo : agree ro H H2). { intros l I. apply X2b. auto. }
    assert (HL2 : heval H2 he LE = Ok (HSlice b off len cap, H2)).
    { change LE with (lexpr L). apply EV0; auto. intros l I. apply AG. rewrite P. apply in_or_app. auto. }
    clear EV0 O0 P fp0 rest.
    assert (EL3 : eval e3 (lexpr L) = Ok (VList vs)) by (change (lexpr L) with LE; rewrite <- EL; apply eval_field; auto).
    assert (NDp : NoDup fp) by exact NDf.
    destruct (path ro self pl types G L okL_L _ _ _ _ _ _ ER5 NDf ROf EL3) as (hv0 & fp0 & rest & O0 & P & EV0 & K).
    assert (A1 : hv0 = HSlice b off len cap).
    { assert (Q : heval H2 he3 (lexpr L) = Ok (hv0, H2)) by (apply EV0; now intros l _). change (lexpr L) with LE in Q.
      rewrite (heval_field _ _ _ LK2) in Q. congruence. }
    subst hv0. clear EV0.
    destruct (own_list_inv _ _ _ _ O0) as [(hvs & C & _)|(base & off' & len' & cap' & ll & fpf & C & -> & NB & LC & BDl & OS)]; [discriminate|].
    inversion C; subst base off' len' cap'. clear C O0.
    pose proof (Permutation_NoDup P NDf) as ND'. cbn [app] in ND'. assert (NBf : ~ In b (fpf ++ rest)) by (inversion ND'; auto). assert (NDr' : NoDup (fpf ++ rest)) by (inversion ND'; auto).
    destruct (nodup_app _ _ NDr') as (NDfp & NDr & DJ).
    assert (FRw : forall l, In l fw -> (List.length H <= l)%nat) by (intros l I; apply FR, in_or_app; auto).
    assert (Bb : (b < List.length H)%nat) by (apply BD; rewrite P; now left).
    assert (Bf : forall l, In l fpf -> (l < List.length H)%nat) by (intros l I; apply BD; rewrite P; right; apply in_or_app; auto).
    assert (Br : forall l, In l rest -> (l < List.length H)%nat) by (intros l I; apply BD; rewrite P; right; apply in_or_app; auto).
    assert (NDw : NoDup fw) by (apply nodup_app in ND2; tauto).
    assert (NDfw : NoDup (fpf ++ fw)).
    { clear - NDfp NDw Bf FRw. induction fpf as [|q fpf IH]; cbn [app]; auto. inversion NDfp; subst. constructor.
      - intros I. apply in_app_or in I as [I|I]; [contradiction|]. specialize (Bf q (or_introl eq_refl)). specialize (FRw _ I). lia.
      - apply IH; auto. intros l I. apply Bf. now right. }
    assert (ROw : forall l, In l fw -> ~ ro l) by (intros l I; apply RO2, in_or_app; auto).
    assert (APP : exists H3 hv fp1, heval H2 he2 (EAppend LE (EVar x)) = Ok (hv, H3) /\ (exists b' o' l' c', hv = HSlice b' o' l' c') /\
      own H3 (VList (vs ++ [w])) hv fp1 /\ NoDup fp1 /\ (forall l, In l fp1 -> l = b \/ In l fpf \/ In l fw \/ (List.length H2 <= l)%nat) /\
      (List.length H2 <= List.length H3)%nat /\ (forall l, (l < List.length H2)%nat -> l <> b -> nth_error H3 l = nth_error H2 l)).
    { assert (HA : heval H2 he2 LE = Ok (HSlice b off len cap, H2)) by (rewrite (heval_field _ he3 he2 R1h), (heval_field _ he he3 LK2); exact HL2).
      unfold MemFill.LE in *. cbn [GoMem.heval] in HA |- *. rewrite HA. cbn [bind]. rewrite XLh. cbn [bind]. rewrite NB. destruct (Nat.ltb_spec len cap).
      - exists (hset b (OArray (updN ll (off + len) hw)) H2), (HSlice b off (S len) cap), (b :: fpf ++ fw).
        split; auto. split; [eauto|]. split.
        + eapply own_slice; [eapply hset_at; exact NB|lia|rewrite updN_length; lia|]. rewrite firstn_upd by lia. apply owns_snoc.
          * eapply owns_agree; [exact OS|]. intros l I. apply hset_other. intros ->. apply NBf, in_or_app. auto.
          * eapply own_agree; [exact OW|]. intros l I. apply hset_other. intros ->. specialize (FRw _ I). lia.
        + split. { constructor; auto. intros I. apply in_app_or in I as [I|I]; [apply NBf, in_or_app; auto|]. specialize (FRw _ I). lia. }
          split. { intros l [<-|I]; auto. apply in_app_or in I. tauto. }
          split; [rewrite hset_length; lia|]. intros l _ Q. now apply hset_other.
      - cbn [alloc]. eexists. eexists. exists (List.length H2 :: fpf ++ fw). split; [reflexivity|]. split; [eauto|]. split.
        + eapply own_slice.
          * rewrite nth_error_app2 by lia. rewrite Nat.sub_diag. reflexivity.
          * apply Nat.le_max_l.
          * rewrite app_length. cbn [List.length]. rewrite repeat_length, firstn_length, skipn_length. lia.
          * cbn [skipn]. match goal with |- owns _ _ (firstn (S len) ?q) _ => replace (firstn (S len) q) with (firstn len (skipn off ll) ++ [hw]) end.
            { apply owns_snoc.
              - eapply owns_agree; [exact OS|]. intros l I. apply nth_error_app1. specialize (Bf _ I). lia.
              - eapply own_agree; [exact OW|]. intros l I. apply nth_error_app1. eapply own_bound; [exact OW|exact I]. }
            assert (LF : List.length (firstn len (skipn off ll)) = len) by (rewrite firstn_length, skipn_length; lia).
            rewrite firstn_app, LF, (firstn_all2 (n := S len) (firstn len (skipn off ll))) by lia. replace (S len - len)%nat with 1%nat by lia. reflexivity.
        + split. { constructor; auto. intros I. apply in_app_or in I as [I|I]; [specialize (Bf _ I); lia|].
            pose proof (own_bound _ _ _ _ OW _ I). lia. }
          split. { intros l [<-|I]; [auto 10|]. apply in_app_or in I. tauto. }
          split; [rewrite app_length; lia|]. intros l Q _. now apply nth_error_app1. }
    destruct APP as (H3_ & hv & fp1 & HAP & (b' & o' & l' & c' & HVS) & O3_ & ND3 & IN3 & LE3_ & AG3_).
    assert (NRb : ~ In b rest) by (intros I; apply NBf, in_or_app; auto).
    assert (INr : forall l, In l rest -> In l fp) by (intros l I; rewrite P; right; apply in_or_app; auto).
    assert (INb : In b fp) by (rewrite P; now left).
    assert (INf : forall l, In l fpf -> In l fp) by (intros l I; rewrite P; right; apply in_or_app; auto).
    assert (HA2 : heval H2 he2 LE = Ok (HSlice b off len cap, H2)) by (rewrite (heval_field _ he3 he2 R1h), (heval_field _ he he3 LK2); exact HL2).
    destruct (store_touch ro self pl wide types G L okL_L _ _ _ _ _ _ _ ER5 NDf ROf ST3) as [_ TW].
    split; [|split; [|exists hv, H3_, (fp1 ++ fp ++ F); split; [exact HAP|split]]].
    { intros l I. cbn [GoConc.reads] in I. rewrite HA2 in I. apply in_app_or in I as [I|I].
      - assert (I' : In l (reads pl types H2 he3 LE)) by (unfold MemFill.LE in *; cbn [GoConc.reads GoMem.heval app] in *; rewrite R1h in I; exact I).
        destruct (reads_pure ro self pl wide types _ _ _ _ _ _ ER5 _ _ pure_LE EL3 _ I'); auto. left. apply in_or_app. right. apply in_or_app. auto.
      - cbn [app sliceReads] in I. destruct len; [contradiction|]. destruct I as [<-|[]]. left. apply in_or_app. right. apply in_or_app. auto. }
    { intros l I. cbn [GoConc.writes] in I. rewrite HA2 in I. unfold MemFill.LE in I. cbn [GoConc.writes app] in I. destruct (len <? cap)%nat; [|contradiction].
      destruct I as [<-|[]]. apply in_or_app. right. apply in_or_app. auto. }
    { split; [split; [exact LE3_|]; split|].
      3: { intros B l I. apply in_app_or in I as [I|I]; [eapply own_bound; eauto|]. assert (l < List.length H2)%nat by (apply B, in_or_app; auto). lia. }
      - intros l Q NI. apply AG3_; auto. intros ->. apply NI, in_or_app. right. apply in_or_app. auto.
      - intros l I. apply in_app_or in I as [I|I]; [|left; apply in_or_app; auto].
        destruct (IN3 _ I) as [->|[Q|[Q|Q]]]; [left..|right; exact Q]; apply in_or_app; [right|right|left]; apply in_or_app; auto. }
    intros H3 ST3'.
    assert (O3 : own H3 (VList (vs ++ [w])) hv fp1). { eapply own_agree; eauto. intros l I. destruct ST3' as [_ B]. apply B. left. apply in_or_app. auto. }
    assert (LE3 : (List.length H2 <= List.length H3)%nat) by (destruct ST3'; lia).
    assert (AG3 : forall l, In l fp \/ In l F \/ ro l -> l <> b -> nth_error H3 l = nth_error H2 l).
    { intros l I Q. destruct ST3' as [_ B]. rewrite B by (destruct I as [I|[I|I]]; auto; left; apply in_or_app; right; apply in_or_app; auto). apply AG3_; auto.
      destruct I as [I|[I|I]]; [specialize (BD _ I); lia|destruct (FRM _ I); lia|specialize (INH _ I); lia]. }
    split; [intros l []|]. split.
    { intros l I. apply in_or_app. right. apply in_or_app. left. apply TW. cbn [storeWrites MemFill.L lexpr GoConc.writes GoMem.heval app] in *. rewrite R1h in I.
      destruct (alookup r he3); exact I. }
    assert (D3 : forall l, In l fp1 -> ~ In l rest).
    { intros l I J. specialize (Br _ J). destruct (IN3 _ I) as [->|[Q|[Q|Q]]]; [contradiction|eapply DJ; eauto|specialize (FRw _ Q); lia|lia]. }
    destruct (K H3 (VList (vs ++ [w])) hv fp1 (assign r u e3)) as (H4 & he4 & fp4 & HS & ER6 & P4 & AG4 & LN4 & _); auto.
    { intros l I. apply AG3; auto. intros ->. contradiction. }
    { intros l I. apply AG3; auto. intros ->. apply (ROf b); auto. }
    { discriminate. }
    destruct (hstore_field _ _ _ _ _ HS) as (-> & HE4 & HB4).
    assert (IN4 : forall l, In l fp4 -> In l fp1 \/ In l rest) by (intros l I; apply (perm_in _ _ _ P4) in I; apply in_app_or in I; auto).
    exists he2, H4, (fp4 ++ F). split; [exact (HB4 he2 R1h)|]. split.
    { assert (SUB : forall l, In l (fp4 ++ F) -> In l (fp1 ++ fp ++ F)).
      { intros l I. apply in_app_or in I as [I|I]; [destruct (IN4 _ I); apply in_or_app; auto; right; apply in_or_app; auto|].
        apply in_or_app. right. apply in_or_app. auto. }
      split; [split; [lia|]; split; auto|].
      - intros l Q NI. apply AG4. intros I. apply NI, in_or_app. right. apply in_or_app. auto.
      - intros B l I. rewrite LN4. auto. }
    assert (HLV : hleave he he2 = he3).
    { rewrite D2h. change (hpre ++ (x, hw) :: he3) with (hpre ++ [(x, hw)] ++ he3). rewrite app_assoc. unfold hleave.
      rewrite (app_length (hpre ++ [(x, hw)]) he3). destruct (envR_length _ _ _ _ _ _ _ _ ER5).
      replace (List.length (hpre ++ [(x, hw)]) + List.length he3 - List.length he)%nat with (List.length (hpre ++ [(x, hw)])) by lia.
      rewrite skipn_app, skipn_all, Nat.sub_diag. reflexivity. }
    cbv beta. rewrite HLV. apply KK; try exact I.
    + constructor; auto.
      * apply (Permutation_NoDup (Permutation_sym P4)). apply nodup_join; auto.
      * intros l I R. destruct (IN4 _ I) as [J|J]; [|apply (ROf l); auto].
        destruct (IN3 _ J) as [->|[Q|[Q|Q]]]; [apply (ROf b); auto|apply (ROf l); auto|eapply ROw; eauto|specialize (INH _ R); lia].
      * intros l R. specialize (INH _ R). lia.
    + split; [lia|]. split.
      * intros l I. assert (NF : ~ In l fp). { intros J. destruct I as [I|I]; [apply (proj2 (FRM _ I)); auto|eapply ROf; eauto]. }
        rewrite AG4; [rewrite AG3|].
        -- apply X2b. destruct I; auto. left. apply in_or_app. auto.
        -- destruct I; auto.
        -- intros ->. contradiction.
        -- intros J. apply NF. auto.
      * intros l I. destruct (IN4 _ I) as [J|J]; [|left; auto].
        destruct (IN3 _ J) as [->|[Q|[Q|Q]]]; [left; auto|left; auto|right; auto|right; lia].
    + intros _. subst hv. exists (vs ++ [w]), b', o', l', c'. split; auto.
  - (* it is rejected *)
    inversion E; subst. cbn [andThen].
    assert (WM : warm (d2 ++ [(x, KMine)])) by (apply Forall_app; split; auto; repeat constructor; discriminate).
    assert (GD2' : good H2_ ((d2 ++ [(x, KMine)]) ++ freeze G) e2 he2 fp2 fz') by (rewrite <- app_assoc; exact GD2_).
    assert (LG : List.length (freeze G) = List.length G) by apply map_length.
    destruct (good_drop ro self _ _ _ _ _ _ _ e he WM GD2') as (fp3 & [ER3 _ _ IN3] & _); try lia.
    destruct X2_ as (X2a & X2b & X2c).
    assert (AG : agree (fun l => In l fp) H H2_). { intros l I. apply X2b. left. apply in_or_app. auto. }
    destruct (TH _ _ _ _ AG ER3) as (-> & ER4 & _).
    apply safe_weaken with (M' := fp ++ F). { intros l I. apply in_or_app. auto. }
    apply KK; auto.
    + constructor; auto.
    + split; [exact X2a|]. split; auto. intros l I. apply X2b. destruct I; auto. left. apply in_or_app. auto.
    + discriminate.
Qed.

Lemma fill_loop : forall m F H e he fp fz e' rr k, good H G e he fp fz -> frame F fp H -> ready H e he -> whileLoop types call n c W m e = (e', rr) -> normal rr ->
  goesOnK F H G fp fz e' rr k -> safe (twhileLoop tcall n c W m he k) (fp ++ F) H.
Proof.
  assert (RS : forall F H e he fp fz H1, good H G e he fp fz -> ready H e he -> stable (fp ++ F) H H1 -> ready H1 e he).
  { intros F H e he fp fz H1 GD (vs & b & off & len & cap & EL & HL) ST. exists vs, b, off, len, cap. split; auto. pose proof GD as [ER NDf ROf IN].
    destruct (path ro self pl types G L okL_L _ _ _ _ _ _ ER NDf ROf EL) as (hv0 & fp0 & rest & O0 & P & EV0 & _).
    assert (A1 : hv0 = HSlice b off len cap).
    { assert (Q : heval H he (lexpr L) = Ok (hv0, H)) by (apply EV0; now intros l _). change (lexpr L) with LE in Q. congruence. }
    subst hv0. destruct ST as [_ B]. apply EV0.
    - intros l I. apply B. left. apply in_or_app. left. rewrite P. apply in_or_app. auto.
    - intros l I. apply B. auto. }
  induction m as [|m IH]; intros F H e he fp fz e' rr k GD FR RD E N K; cbn [whileLoop twhileLoop] in *.
  - apply lift_inv in E as (v & EV & E); auto. destruct v as [| | | | | | |[]]; try (inversion E; subst; contradiction).
    eapply step_cond; eauto. intros H1 ST GD1. inversion E; subst. apply K; auto; try exact I. now apply stable_later.
  - apply lift_inv in E as (v & EV & E); auto. destruct v as [| | | | | | |b0]; try (inversion E; subst; contradiction).
    eapply step_cond; eauto. intros H1 ST GD1. pose proof (stable_later _ _ _ _ _ ST) as X1. pose proof (frame_stable _ _ _ _ _ FR ST) as FR1. destruct b0.
    + destruct (block types call n W e) as [e2 r2] eqn:EB.
      assert (N2 : normal r2) by (destruct r2; try exact I; inversion E; subst; contradiction).
      eapply fill_step; eauto. intros H2 he2 hr2 fp2 GD2 X2 R2 RD2. pose proof (frame_later _ _ _ _ _ _ FR1 X2) as FR2.
      destruct r2; try contradiction; destruct hr2; try contradiction.
      * eapply IH; eauto. intros H3 he3 hr3 fp3 GD3 X3 R3. apply K; auto. eapply later_trans; [exact X1|]. eapply later_trans; eauto.
      * inversion E; subst. apply K; auto. eapply later_trans; eauto.
    + inversion E; subst. apply K; auto; try exact I.
Qed.

Lemma sim_fill : forall b G', simB G b G' -> simB G (SAssign L (EMake g (EInt 0)) :: SWhile c W :: b) G'.
Proof.
  intros b G' SBb tail F H e he fp fz e' rr k GD FR E N K. rewrite execs_cons in E. destruct (exec (SAssign L (EMake g (EInt 0))) e) as [e1 r1] eqn:E1.
  assert (N1 : normal r1) by (destruct r1; try exact I; inversion E; subst; contradiction).
  cbn [GoLang.exec] in E1. apply lift_inv in E1 as (v & EV & E1); auto. apply lift_inv in E1 as (e1' & ST & E1); auto. inversion E1; subst e1' r1. clear E1 N1.
  assert (PF : freshE G (EMake g (EInt 0)) = true) by reflexivity.
  rewrite execs_cons, exec_while in E. destruct (whileLoop types call n c W n e1) as [e2 r2] eqn:EW.
  assert (N2 : normal r2) by (destruct r2; try exact I; inversion E; subst; contradiction).
  cbn [app]. rewrite texecs_cons. cbn [GoConc.texec].
  assert (VV : exists vs, v = VList vs).
  { cbn [GoLang.eval bind] in EV. destruct ((0 <? 0) || (maxAlloc <? 0 * gsize g)); [discriminate|]. inversion EV. eauto. }
  destruct VV as [vs ->].
  eapply step_own; eauto. intros H1 hv fp1 ST1 GD1 O ND1 D1 [H0 HV].
  assert (HVV : exists b off len cap, hv = HSlice b off len cap).
  { cbn [GoMem.heval bind] in HV. destruct ((0 <? 0) || (hmax (word pl) <? 0 * hsize (word pl) g)); [discriminate|]. cbn [alloc] in HV. inversion HV. eauto. }
  destruct HVV as (b1 & off & len & cap & ->). pose proof (stable_later _ _ _ _ _ ST1) as X1. pose proof (frame_stable _ _ _ _ _ FR ST1) as FR1.
  destruct (store_field _ _ _ ST) as (u & EU & EVL & _).
  eapply step_set; eauto. { intros y I. destruct (D1 _ I) as (_ & A). exact A. }
  intros H3 he1 fp' GD3 X3_ [H2 HS].
  assert (X3 : later F H fp H3 fp') by (eapply later_new; eauto; intros y I; now destruct (D1 _ I)).
  destruct (hstore_field _ _ _ _ _ HS) as (-> & HE & _).
  pose proof (frame_later _ _ _ _ _ _ FR X3) as FR3.
  assert (RD : ready H3 e1 he) by (exists vs, b1, off, len, cap; auto).
  rewrite texecs_cons, texec_while. eapply fill_loop; eauto. intros H4 he4 hr4 fp4 GD4 X4 R4.
  pose proof (frame_later _ _ _ _ _ _ FR3 X4) as FR4. pose proof (later_trans _ _ _ _ _ _ _ _ X3 X4) as X5.
  destruct r2; try contradiction; destruct hr4; try contradiction.
  - eapply SBb; eauto. intros H6 he6 hr6 fp6 d6 W6 GD6 X6 R6 D6. apply (K H6 he6 hr6 fp6 d6); auto. eapply later_trans; eauto.
  - inversion E; subst. match goal with |- context [k he4 ?h] => apply (K H4 he4 h fp4 []) end; auto; try discriminate. constructor.
Qed.
End Fill.
End Old.
