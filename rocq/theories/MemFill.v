(** The loop that appends elements until the data ends. *)
From Coq Require Import ZArith String List Bool Lia ZifyBool ZifyNat Permutation.
From Verif Require Import Base GoLang GenSim GoMem MemSim MemPath MemExec MemStep.
Import ListNotations.
Open Scope string_scope.
Open Scope list_scope.
Open Scope Z_scope.

Section Old.
Context {oldI : Old}.

Lemma envR_names : forall ro self H G e he fp fz, envR ro self H G e he fp fz -> map fst e = map fst G /\ map fst he = map fst G.
Proof. intros ro self H G e he fp fz E. induction E; cbn [map fst]; auto; destruct IHE as [-> ->]; auto. Qed.

Lemma owns_snoc : forall H vs hvs fp v hv fpv, owns H vs hvs fp -> own H v hv fpv -> owns H (vs ++ [v]) (hvs ++ [hv]) (fp ++ fpv).
Proof.
  intros H. induction vs as [|u vs IH]; intros hvs fp v hv fpv O O1; inversion O; subst; cbn [app].
  - replace fpv with (fpv ++ []) by apply app_nil_r. exact (owns_cons H v hv fpv [] [] [] O1 (owns_nil H)).
  - rewrite <- app_assoc. constructor; auto.
Qed.

Lemma firstn_upd : forall {A} (ll : list A) off len w, (off + len < List.length ll)%nat ->
  firstn (S len) (skipn off (updN ll (off + len) w)) = firstn len (skipn off ll) ++ [w].
Proof.
  intros A. induction ll as [|a ll IH]; intros off len w L; cbn [List.length] in L; [lia|]. destruct off as [|off].
  - cbn [skipn Nat.add]. destruct len as [|len]; cbn [updN firstn app]; [reflexivity|].
    specialize (IH O len w ltac:(cbn; lia)). cbn [skipn Nat.add] in IH. cbn [firstn] in IH. f_equal. exact IH.
  - cbn [Nat.add updN skipn]. apply IH. lia.
Qed.

Section Fill.
Variable ro : loc -> Prop.
Variable self : hval.
Variable pl : platform.
Hypothesis wide : word pl = 8.
Variable types : amap (list (string * gtype)).
Variable call : callfun.
Variable hcall : hcallfun.
Variable n : nat.
Notation envR := (envR ro self).
Notation good := (good ro self).
Notation eval := (eval types).
Notation store := (store types).
Notation exec := (exec types call n).
Notation execs := (execs types call n).
Notation heval := (heval pl types).
Notation hstore := (hstore pl types).
Notation hexec := (hexec pl types hcall n).
Notation hexecs := (hexecs pl types hcall n).
Notation simB := (simB ro self pl types call hcall n).
Notation simS := (simS ro self pl types call hcall n).
Variable G : ctx.
Variable g : gtype.
Variable r f x : string.
Variable c : expr.
Variable body : list stmt.
Variable d : ctx.
Hypothesis RO : isOwner G r = true.
Hypothesis RX : r <> x.
Hypothesis PC : pureE G c = true.
Hypothesis SB : simB ((x, KMine) :: freeze G) body (d ++ (x, KMine) :: freeze G).
Hypothesis WD : warm d.
Hypothesis ND : ~ In x (map fst d).
Hypothesis NR : ~ In r (map fst d).

Definition L : lval := LField (LVar r) f.
Definition LE : expr := ESel (EVar r) f.
Definition W : list stmt := SVar x g :: body ++ [SAssign L (EAppend LE (EVar x))].

Lemma store_field : forall eA v e1, store eA L v = Ok e1 -> exists u, e1 = assign r u eA /\ eval e1 LE = Ok v /\
  forall eB, alookup r eB = alookup r eA -> store eB L v = Ok (assign r u eB).
Proof.
  intros eA v e1 S. unfold L, LE in *. cbn [GoLang.store GoLang.eval lexpr] in *. destruct (alookup r eA) as [w|] eqn:A; [|discriminate].
  cbn [bind] in S. destruct w; try discriminate. destruct (alookup f fs) eqn:F; [|discriminate]. inversion S; subst.
  eexists. split; [reflexivity|]. split.
  - rewrite (alookup_assign_same _ _ _ _ A). cbn [bind]. now rewrite (alookup_assign_same _ _ _ _ F).
  - intros eB ->. cbn [bind]. now rewrite F.
Qed.
Lemma alookup_hassign_same : forall {A} y (v : A) e w, alookup y e = Some w -> alookup y (hassign y v e) = Some v.
Proof.
  intros A y v. induction e as [|[z u] e IH]; intros w E; cbn [hassign alookup] in *; [discriminate|].
  destruct (String.eqb_spec y z); cbn [alookup]; [subst; now rewrite String.eqb_refl|].
  destruct (String.eqb_spec y z); [contradiction|]. eauto.
Qed.
Lemma hstore_field : forall H eA hv H1 e1, hstore H eA L hv = Ok (H1, e1) -> e1 = eA /\ heval H1 eA LE = Ok (hv, H1) /\
  forall eB, alookup r eB = alookup r eA -> hstore H eB L hv = Ok (H1, eB).
Proof.
  intros H eA v H1 e1 S. unfold L, LE in *. cbn [GoMem.hstore GoMem.heval lexpr] in *. destruct (alookup r eA) as [w|] eqn:A; [|discriminate].
  cbn [bind] in S. destruct w; try discriminate. destruct (nth_error H p) as [[|ty fs]|] eqn:NP; try discriminate. destruct (alookup f fs) eqn:F; [|discriminate].
  inversion S; subst. split; auto. split.
  - cbn [bind]. rewrite (hset_at _ _ _ _ NP). now rewrite (alookup_hassign_same _ _ _ _ F).
  - intros eB ->. cbn [bind]. now rewrite NP, F.
Qed.
Lemma heval_field : forall H eA eB, alookup r eB = alookup r eA -> heval H eB LE = heval H eA LE.
Proof. intros H eA eB E. unfold LE. cbn [GoMem.heval]. now rewrite E. Qed.
Lemma eval_field : forall eA eB, alookup r eB = alookup r eA -> eval eB LE = eval eA LE.
Proof. intros eA eB E. unfold LE. cbn [GoLang.eval]. now rewrite E. Qed.

(** There is a slice to append to. *)
Definition ready (H : heap) (e : env) (he : henv) : Prop :=
  exists vs b off len cap, eval e LE = Ok (VList vs) /\ heval H he LE = Ok (HSlice b off len cap, H).

Lemma okL_L : okL G L = true.
Proof. exact RO. Qed.

Lemma fill_step : forall H e he fp fz e' rr, good H G e he fp fz -> ready H e he -> block types call n W e = (e', rr) -> normal rr ->
  exists H' he' hr fp', hblock pl types hcall n W H he = (H', he', hr) /\ good H' G e' he' fp' fz /\ ext H fp H' fp' /\ resR ro H' rr hr /\
    (rr = SNext -> ready H' e' he').
Proof.
  intros H e he fp fz e' rr GD (vs & b & off & len & cap & EL & HL) E N. pose proof GD as [ER NDf ROf IN].
  destruct (envR_length _ _ _ _ _ _ _ _ ER) as [LN1 LN2].
  assert (BD : forall l, In l fp -> (l < List.length H)%nat) by (apply (envR_bound _ _ _ _ _ _ _ _ ER)).
  unfold block, W in E. rewrite execs_cons in E. cbn [GoLang.exec] in E. rewrite execs_app in E.
  destruct (execs body ((x, zero g) :: e)) as [e2 r2] eqn:EB.
  destruct (freeze_env _ _ _ _ _ _ _ _ ER) as (fz' & EF & TH).
  assert (GF : good H ((x, KMine) :: freeze G) ((x, zero g) :: e) ((x, hzero g) :: he) [] fz').
  { constructor; auto. - change (@nil loc) with (@nil loc ++ []). apply envR_own; auto; [discriminate|]. apply zero_own. - constructor. }
  assert (N2 : normal r2) by (destruct r2; try exact I; inversion E; subst; contradiction).
  destruct (SB _ _ _ _ _ _ _ GF EB N2) as (H2 & he2 & hr2 & fp2 & d2 & HB & WD2 & GD2 & X2 & R2 & DD).
  assert (AG : agree (fun l => In l fp) H H2).
  { destruct X2 as (_ & X & _). intros l I. apply X; [apply BD; auto|]. intros []. }
  assert (HW : hexecs W H he = let '(H1, e1, q) := hexecs body H ((x, hzero g) :: he) in
    match q with HNext => hexecs [SAssign L (EAppend LE (EVar x))] H1 e1 | _ => (H1, e1, q) end).
  { unfold W. rewrite hexecs_cons. cbn [GoMem.hexec]. apply hexecs_app. }
  unfold hblock. rewrite HW, HB. clear HW HB.
  destruct X2 as (X2a & X2b & X2c).
  assert (FR : forall l, In l fp2 -> (List.length H <= l)%nat) by (intros l I; destruct (X2c _ I) as [[]|]; auto).
  assert (INH : forall l, ro l -> (l < List.length H)%nat) by exact IN.
  destruct r2; try contradiction; destruct hr2; try contradiction.
  - (* the element is complete *)
    specialize (DD eq_refl). apply app_inv_tail in DD. subst d2. clear WD2 R2.
    destruct GD2 as [ER2 ND2 RO2 IN2]. destruct (envR_names _ _ _ _ _ _ _ _ ER2) as [NM1 NM2].
    destruct (envR_length _ _ _ _ _ _ _ _ ER2) as [LL1 LL2]. rewrite app_length in LL2. cbn [List.length] in LL2. unfold freeze in LL2. rewrite map_length in LL2.
    destruct (envR_drop _ _ _ _ _ _ _ _ _ WD ER2) as (fa & fb & -> & ER3).
    remember (skipn (List.length d) e2) as e2' eqn:He2. remember (skipn (List.length d) he2) as he2' eqn:Hh2.
    assert (I3 : exists w hw e3 he3 fw fc, e2' = (x, w) :: e3 /\ he2' = (x, hw) :: he3 /\ fb = fw ++ fc /\ own H2 w hw fw /\ envR H2 (freeze G) e3 he3 fc fz').
    { inversion ER3; subst; try discriminate. eauto 15. }
    destruct I3 as (w & hw & e3 & he3 & fw & fc & Ea & Eb & -> & OW & ER4). rewrite Ea in He2. rewrite Eb in Hh2. clear ER3 Ea Eb e2' he2'.
    destruct (TH _ _ _ _ AG ER4) as (-> & ER5 & LK). rewrite app_nil_r in *. destruct (LK r RO) as [LK1 LK2].
    assert (D2 : e2 = firstn (List.length d) e2 ++ (x, w) :: e3) by (rewrite He2; symmetry; apply firstn_skipn).
    assert (D2h : he2 = firstn (List.length d) he2 ++ (x, hw) :: he3) by (rewrite Hh2; symmetry; apply firstn_skipn).
    assert (PN : map fst (firstn (List.length d) e2) = map fst d).
    { rewrite <- firstn_map, NM1, map_app, firstn_app, map_length, Nat.sub_diag, app_nil_r, <- (map_length fst d). apply firstn_all. }
    assert (PNh : map fst (firstn (List.length d) he2) = map fst d).
    { rewrite <- firstn_map, NM2, map_app, firstn_app, map_length, Nat.sub_diag, app_nil_r, <- (map_length fst d). apply firstn_all. }
    set (pre := firstn (List.length d) e2) in *. set (hpre := firstn (List.length d) he2) in *. clearbody pre hpre. clear He2 Hh2 NM1 NM2.
    assert (R1 : alookup r e2 = alookup r e).
    { rewrite D2, alookup_app_notin by (rewrite PN; auto). cbn [alookup]. destruct (String.eqb_spec r x); [contradiction|exact LK1]. }
    assert (R1h : alookup r he2 = alookup r he3).
    { rewrite D2h, alookup_app_notin by (rewrite PNh; auto). cbn [alookup]. destruct (String.eqb_spec r x); [contradiction|reflexivity]. }
    assert (XL : alookup x e2 = Some w).
    { rewrite D2, alookup_app_notin by (rewrite PN; auto). cbn [alookup]. now rewrite String.eqb_refl. }
    assert (XLh : alookup x he2 = Some hw).
    { rewrite D2h, alookup_app_notin by (rewrite PNh; auto). cbn [alookup]. now rewrite String.eqb_refl. }
    (* the value machine *)
    cbn [GoLang.execs GoLang.exec] in E.
    assert (EA : eval e2 (EAppend LE (EVar x)) = Ok (VList (vs ++ [w]))).
    { change (eval e2 (EAppend LE (EVar x))) with (v <- eval e2 LE ;; w <- eval e2 (EVar x) ;; match v with VList l => Ok (VList (l ++ [w])) | VNil => Ok (VList [w]) | _ => stuck end).
      rewrite (eval_field _ _ R1), EL. cbn [bind GoLang.eval]. rewrite XL. reflexivity. }
    rewrite EA in E. cbn [lift] in E.
    destruct (store e2 L (VList (vs ++ [w]))) as [e4| | |] eqn:ST; cbn [lift] in E; try (inversion E; subst; contradiction).
    inversion E; subst e' rr. clear E.
    destruct (store_field _ _ _ ST) as (u & -> & EV4 & SF). clear EV4.
    assert (LV : leave e (assign r u e2) = assign r u e3).
    { rewrite D2, assign_app_notin by (rewrite PN; auto). rewrite assign_push by auto.
      change (pre ++ (x, w) :: assign r u e3) with (pre ++ [(x, w)] ++ assign r u e3). rewrite app_assoc. apply leave_app.
      rewrite assign_len. destruct (envR_length _ _ _ _ _ _ _ _ ER5). lia. }
    rewrite LV. pose proof (SF e3 (eq_trans LK1 (eq_sym R1))) as ST3. destruct (store_field _ _ _ ST3) as (u' & EU & EV3 & _). clear EU u' SF.
    (* the other *)
    destruct (path ro self pl types G L okL_L _ _ _ _ _ _ ER NDf ROf EL) as (hv0 & fp0 & rest & O0 & P & EV0 & _).
    assert (A1 : hv0 = HSlice b off len cap).
    { assert (Q : heval H he (lexpr L) = Ok (hv0, H)) by (apply EV0; now intros l _). change (lexpr L) with LE in Q. congruence. }
    subst hv0.
    assert (AGo : agree ro H H2). { intros l I. apply X2b; [auto|intros []]. }
    assert (HL2 : heval H2 he LE = Ok (HSlice b off len cap, H2)).
    { change LE with (lexpr L). apply EV0; auto. intros l I. apply AG. rewrite P. apply in_or_app. auto. }
    clear EV0 O0 P fp0 rest.
    assert (EL3 : eval e3 (lexpr L) = Ok (VList vs)) by (change (lexpr L) with LE; rewrite <- EL; apply eval_field; auto).
    assert (NDp : NoDup fp) by exact NDf.
    destruct (path ro self pl types G L okL_L _ _ _ _ _ _ ER5 NDf ROf EL3) as (hv0 & fp0 & rest & O0 & P & EV0 & K).
    assert (A1 : hv0 = HSlice b off len cap).
    { assert (Q : heval H2 he3 (lexpr L) = Ok (hv0, H2)) by (apply EV0; now intros l _). change (lexpr L) with LE in Q.
      rewrite (heval_field _ _ _ LK2) in Q. congruence. }
    subst hv0. clear EV0.
    destruct (own_list_inv _ _ _ _ O0) as [(hvs & C & _)|(base & off' & len' & cap' & ll & fpf & C & -> & NB & LC & BDl & OS)]; [discriminate|].
    inversion C; subst base off' len' cap'. clear C O0.
    pose proof (Permutation_NoDup P NDf) as ND'. cbn [app] in ND'. assert (NBf : ~ In b (fpf ++ rest)) by (inversion ND'; auto). assert (NDr' : NoDup (fpf ++ rest)) by (inversion ND'; auto).
    destruct (nodup_app _ _ NDr') as (NDfp & NDr & DJ).
    assert (FRw : forall l, In l fw -> (List.length H <= l)%nat) by (intros l I; apply FR, in_or_app; auto).
    assert (Bb : (b < List.length H)%nat) by (apply BD; rewrite P; now left).
    assert (Bf : forall l, In l fpf -> (l < List.length H)%nat) by (intros l I; apply BD; rewrite P; right; apply in_or_app; auto).
    assert (Br : forall l, In l rest -> (l < List.length H)%nat) by (intros l I; apply BD; rewrite P; right; apply in_or_app; auto).
    assert (NDw : NoDup fw) by (apply nodup_app in ND2; tauto).
    assert (NDfw : NoDup (fpf ++ fw)).
    { clear - NDfp NDw Bf FRw. induction fpf as [|q fpf IH]; cbn [app]; auto. inversion NDfp; subst. constructor.
      - intros I. apply in_app_or in I as [I|I]; [contradiction|]. specialize (Bf q (or_introl eq_refl)). specialize (FRw _ I). lia.
      - apply IH; auto. intros l I. apply Bf. now right. }
    assert (ROw : forall l, In l fw -> ~ ro l) by (intros l I; apply RO2, in_or_app; auto).
    assert (APP : exists H3 hv fp1, heval H2 he2 (EAppend LE (EVar x)) = Ok (hv, H3) /\ (exists b' o' l' c', hv = HSlice b' o' l' c') /\
      own H3 (VList (vs ++ [w])) hv fp1 /\ NoDup fp1 /\ (forall l, In l fp1 -> l = b \/ In l fpf \/ In l fw \/ (List.length H2 <= l)%nat) /\
      (List.length H2 <= List.length H3)%nat /\ (forall l, (l < List.length H2)%nat -> l <> b -> nth_error H3 l = nth_error H2 l)).
    { assert (HA : heval H2 he2 LE = Ok (HSlice b off len cap, H2)) by (rewrite (heval_field _ he3 he2 R1h), (heval_field _ he he3 LK2); exact HL2).
      unfold LE in *. cbn [GoMem.heval] in HA |- *. rewrite HA. cbn [bind]. rewrite XLh. cbn [bind]. rewrite NB. destruct (Nat.ltb_spec len cap).
      - exists (hset b (OArray (updN ll (off + len) hw)) H2), (HSlice b off (S len) cap), (b :: fpf ++ fw).
        split; auto. split; [eauto|]. split.
        + eapply own_slice; [eapply hset_at; exact NB|lia|rewrite updN_length; lia|]. rewrite firstn_upd by lia. apply owns_snoc.
          * eapply owns_agree; [exact OS|]. intros l I. apply hset_other. intros ->. apply NBf, in_or_app. auto.
          * eapply own_agree; [exact OW|]. intros l I. apply hset_other. intros ->. specialize (FRw _ I). lia.
        + split. { constructor; auto. intros I. apply in_app_or in I as [I|I]; [apply NBf, in_or_app; auto|]. specialize (FRw _ I). lia. }
          split. { intros l [<-|I]; auto. apply in_app_or in I. tauto. }
          split; [rewrite hset_length; lia|]. intros l _ Q. now apply hset_other.
      - cbn [alloc]. eexists. eexists. exists (List.length H2 :: fpf ++ fw). split; [reflexivity|]. split; [eauto|]. split.
        + eapply own_slice.
          * rewrite nth_error_app2 by lia. rewrite Nat.sub_diag. reflexivity.
          * apply Nat.le_max_l.
          * rewrite app_length. cbn [List.length]. rewrite repeat_length, firstn_length, skipn_length. lia.
          * cbn [skipn]. match goal with |- owns _ _ (firstn (S len) ?q) _ => replace (firstn (S len) q) with (firstn len (skipn off ll) ++ [hw]) end.
            { apply owns_snoc.
              - eapply owns_agree; [exact OS|]. intros l I. apply nth_error_app1. specialize (Bf _ I). lia.
              - eapply own_agree; [exact OW|]. intros l I. apply nth_error_app1. eapply own_bound; [exact OW|exact I]. }
            assert (LF : List.length (firstn len (skipn off ll)) = len) by (rewrite firstn_length, skipn_length; lia).
            rewrite firstn_app, LF, (firstn_all2 (n := S len) (firstn len (skipn off ll))) by lia. replace (S len - len)%nat with 1%nat by lia. reflexivity.
        + split. { constructor; auto. intros I. apply in_app_or in I as [I|I]; [specialize (Bf _ I); lia|].
            pose proof (own_bound _ _ _ _ OW _ I). lia. }
          split. { intros l [<-|I]; [auto 10|]. apply in_app_or in I. tauto. }
          split; [rewrite app_length; lia|]. intros l Q _. now apply nth_error_app1. }
    destruct APP as (H3 & hv & fp1 & HAP & (b' & o' & l' & c' & HVS) & O3 & ND3 & IN3 & LE3 & AG3).
    assert (NRb : ~ In b rest) by (intros I; apply NBf, in_or_app; auto).
    assert (D3 : forall l, In l fp1 -> ~ In l rest).
    { intros l I J. specialize (Br _ J). destruct (IN3 _ I) as [->|[Q|[Q|Q]]]; [contradiction|eapply DJ; eauto|specialize (FRw _ Q); lia|lia]. }
    destruct (K H3 (VList (vs ++ [w])) hv fp1 (assign r u e3)) as (H4 & he4 & fp4 & HS & ER6 & P4 & AG4 & LN4 & _); auto.
    { intros l I. apply AG3; [specialize (Br _ I); lia|]. intros ->. contradiction. }
    { intros l I. apply AG3; [specialize (INH _ I); lia|]. intros ->. apply (ROf b); auto. rewrite P. now left. }
    { discriminate. }
    destruct (hstore_field _ _ _ _ _ HS) as (-> & HE4 & HB4).
    cbn [GoMem.hexecs GoMem.hexec]. rewrite HAP. cbn [hlift]. rewrite (HB4 he2 R1h). cbn [hlift].
    assert (HLV : hleave he he2 = he3).
    { rewrite D2h. change (hpre ++ (x, hw) :: he3) with (hpre ++ [(x, hw)] ++ he3). rewrite app_assoc. unfold hleave.
      rewrite (app_length (hpre ++ [(x, hw)]) he3). destruct (envR_length _ _ _ _ _ _ _ _ ER5).
      replace (List.length (hpre ++ [(x, hw)]) + List.length he3 - List.length he)%nat with (List.length (hpre ++ [(x, hw)])) by lia.
      rewrite skipn_app, skipn_all, Nat.sub_diag. reflexivity. }
    exists H4, he3, HNext, fp4. rewrite HLV. split; auto. split.
    { constructor; auto.
      - apply (Permutation_NoDup (Permutation_sym P4)). clear - ND3 NDr D3. induction fp1 as [|q fp1 IH]; cbn [app]; auto. inversion ND3; subst. constructor.
        + intros I. apply in_app_or in I as [I|I]; [contradiction|]. apply (D3 q); auto. now left.
        + apply IH; auto. intros l I. apply D3. now right.
      - intros l I R. apply (perm_in _ _ _ P4) in I. apply in_app_or in I as [I|I].
        + destruct (IN3 _ I) as [->|[Q|[Q|Q]]].
          * apply (ROf b); auto. rewrite P. now left.
          * apply (ROf l); auto. rewrite P. right. apply in_or_app. auto.
          * eapply ROw; eauto.
          * specialize (INH _ R). lia.
        + apply (ROf l); auto. rewrite P. right. apply in_or_app. auto.
      - intros l R. specialize (INH _ R). lia. }
    split.
    { split; [lia|]. split.
      - intros l Q NI. rewrite AG4; [rewrite AG3|].
        + apply X2b; auto.
        + lia.
        + intros ->. apply NI. rewrite P. now left.
        + intros I. apply NI. rewrite P. right. apply in_or_app. auto.
      - intros l I. apply (perm_in _ _ _ P4) in I. apply in_app_or in I as [I|I].
        + destruct (IN3 _ I) as [->|[Q|[Q|Q]]].
          * left. rewrite P. now left.
          * left. rewrite P. right. apply in_or_app. auto.
          * right. auto.
          * right. lia.
        + left. rewrite P. right. apply in_or_app. auto. }
    split; [exact I|]. intros _. subst hv. exists (vs ++ [w]), b', o', l', c'. split; auto.
  - (* it is rejected *)
    inversion E; subst. exists H2, (hleave he he2), (HRet v w).
    assert (WM : warm (d2 ++ [(x, KMine)])) by (apply Forall_app; split; auto; repeat constructor; discriminate).
    assert (GD2' : good H2 ((d2 ++ [(x, KMine)]) ++ freeze G) e2 he2 fp2 fz') by (rewrite <- app_assoc; exact GD2).
    assert (LG : List.length (freeze G) = List.length G) by apply map_length.
    destruct (good_drop ro self _ _ _ _ _ _ _ e he WM GD2') as (fp3 & [ER3 _ _ IN3] & _); try lia.
    destruct (TH _ _ _ _ AG ER3) as (-> & ER4 & _). exists fp. split; auto. split.
    { constructor; auto. }
    split; [|split; [exact R2|discriminate]]. split; [exact X2a|]. split; [|auto]. intros l Q _. apply X2b; [exact Q|intros []].
Qed.

Lemma fill_loop : forall m H e he fp fz e' rr, good H G e he fp fz -> ready H e he -> whileLoop types call n c W m e = (e', rr) -> normal rr ->
  exists H' he' hr fp', hwhileLoop pl types hcall n c W m H he = (H', he', hr) /\ good H' G e' he' fp' fz /\ ext H fp H' fp' /\ resR ro H' rr hr.
Proof.
  induction m as [|m IH]; intros H e he fp fz e' rr GD RD E N; cbn [whileLoop hwhileLoop] in *.
  - apply lift_inv in E as (v & EV & E); auto. destruct v as [| | | | | | |[]]; try (inversion E; subst; contradiction).
    rewrite (sim_cond ro self pl wide types _ _ _ _ _ _ _ _ GD PC EV). cbn [hlift]. inversion E; subst. exists H, he, HNext, fp. conj.
  - apply lift_inv in E as (v & EV & E); auto. destruct v as [| | | | | | |[]]; try (inversion E; subst; contradiction);
      rewrite (sim_cond ro self pl wide types _ _ _ _ _ _ _ _ GD PC EV); cbn [hlift].
    + destruct (block types call n W e) as [e2 r2] eqn:EB.
      assert (N2 : normal r2) by (destruct r2; try exact I; inversion E; subst; contradiction).
      destruct (fill_step _ _ _ _ _ _ _ GD RD EB N2) as (H2 & he2 & hr2 & fp2 & HB & GD2 & X2 & R2 & RD2). rewrite HB.
      destruct r2; try contradiction; destruct hr2; try contradiction.
      * destruct (IH _ _ _ _ _ _ _ GD2 (RD2 eq_refl) E N) as (H3 & he3 & hr3 & fp3 & A1 & A2 & A3 & A4).
        exists H3, he3, hr3, fp3. conj. eapply ext_trans; eauto.
      * inversion E; subst. exists H2, he2, (HRet v w), fp2. conj.
    + inversion E; subst. exists H, he, HNext, fp. conj.
Qed.

Lemma sim_fill : forall b G', simB G b G' -> simB G (SAssign L (EMake g (EInt 0)) :: SWhile c W :: b) G'.
Proof.
  intros b G' SBb H e he fp fz e' rr GD E N. rewrite execs_cons in E. destruct (exec (SAssign L (EMake g (EInt 0))) e) as [e1 r1] eqn:E1.
  assert (N1 : normal r1) by (destruct r1; try exact I; inversion E; subst; contradiction).
  cbn [GoLang.exec] in E1. apply lift_inv in E1 as (v & EV & E1); auto. apply lift_inv in E1 as (e1' & ST & E1); auto. inversion E1; subst e1' r1. clear E1 N1.
  assert (PF : freshE G (EMake g (EInt 0)) = true) by reflexivity.
  destruct (fresh_sim ro self pl wide types _ _ _ _ _ _ _ _ (g_env _ _ _ _ _ _ _ _ GD) PF EV) as (hv & dd & fp1 & HV & O & ND1 & FR).
  assert (VV : exists vs, v = VList vs).
  { cbn [GoLang.eval bind] in EV. destruct ((0 <? 0) || (maxAlloc <? 0 * gsize g)); [discriminate|]. inversion EV. eauto. }
  assert (HVV : exists b off len cap, hv = HSlice b off len cap).
  { cbn [GoMem.heval bind] in HV. destruct ((0 <? 0) || (hmax (word pl) <? 0 * hsize (word pl) g)); [discriminate|]. cbn [alloc] in HV. inversion HV. eauto. }
  destruct VV as [vs ->], HVV as (b1 & off & len & cap & ->).
  destruct (set_path _ _ pl types _ _ _ _ _ _ _ _ _ _ _ _ GD okL_L eq_refl O ND1 FR ST) as (H2 & he1 & fp' & HS & GD1 & X1).
  destruct (hstore_field _ _ _ _ _ HS) as (-> & HE & _). destruct (store_field _ _ _ ST) as (u & EU & EVL & _).
  rewrite execs_cons, exec_while in E. destruct (whileLoop types call n c W n e1) as [e2 r2] eqn:EW.
  assert (N2 : normal r2) by (destruct r2; try exact I; inversion E; subst; contradiction).
  assert (RD : ready H2 e1 he) by (exists vs, b1, off, len, cap; auto).
  destruct (fill_loop _ _ _ _ _ _ _ _ GD1 RD EW N2) as (H3 & he3 & hr3 & fp3 & HW & GD3 & X3 & R3).
  rewrite hexecs_cons. cbn [GoMem.hexec]. rewrite HV. cbn [hlift]. rewrite HS. cbn [hlift]. rewrite hexecs_cons, hexec_while, HW.
  destruct r2; try contradiction; destruct hr3; try contradiction.
  - destruct (SBb _ _ _ _ _ _ _ GD3 E N) as (H4 & he4 & hr4 & fp4 & d4 & HB & W4 & GD4 & X4 & R4 & D4). exists H4, he4, hr4, fp4, d4. conj.
    eapply ext_trans; [eapply ext_trans; eauto|auto].
  - inversion E; subst. exists H3, he3, (HRet v w), fp3, []. conj; try discriminate. eapply ext_trans; eauto.
Qed.
End Fill.
End Old.
