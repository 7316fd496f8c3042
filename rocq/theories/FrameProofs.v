(** A union with a length reads as many bytes as an array of bytes with that length, and its case
    reads what the array holds. *)
From Coq Require Import ZArith String List Bool Lia ZifyBool ZifyNat.
From Verif Require Import Base Ast IntervalsModel InspectModel InspectSpec InspectProofs BranchProofs GoLang GenModel GenDecode GenCheck GenSim GenSimBody GenSimProg GenMono WireSpec WireProofs WireComplete WireFacts GenTerm FwdProofs
  ReachProofs GroupSpec GroupProofs PackageSpec PackageProofs PackageFacts PackageMore ParseFacts IndepSpec UnrollProofs P_Unroll SwapProofs P_Bytes PickProofs.
Import ListNotations.
Open Scope string_scope.
Open Scope list_scope.
Open Scope Z_scope.

Lemma within_ok : forall {A} k c (body : bytes -> outcome (A * bytes)) a c1, decWithin k c body = Ok (a, c1) <->
  0 <= k <= blen c /\ c1 = skipn (Z.to_nat k) c /\ body (firstn (Z.to_nat k) c) = Ok (a, []).
Proof.
  intros A k c body a c1. unfold decWithin. split.
  - destruct (blen c <? k) eqn:E; [discriminate|]. destruct (k <? 0) eqn:E2; [discriminate|]. intros H. apply bind_ok in H as ([a0 c0] & H & E3).
    destruct (0 <? blen c0) eqn:E4; [discriminate|]. injection E3 as <- <-. split; [lia|]. split; auto. rewrite H. destruct c0; auto. unfold blen in E4. cbn [List.length] in E4. lia.
  - intros (L & -> & E). replace (blen c <? k) with false by lia. replace (k <? 0) with false by lia. rewrite E. reflexivity.
Qed.

Section Extent.
Variable camel : string -> string.
Variable r : resolver.
Variable dcall : string -> amap value -> bytes -> outcome (value * bytes).
Variable n : nat.
Variable cenv : amap value.
Variable dat : bytes.
Definition extent (a : amap value) (l : lconstraint) (c : bytes) (k : Z) : Prop :=
  match l with
  | LRef f => exists x, refVal camel a cenv f = Ok x /\ k = s64 x
  | LLeftover i => exists j, integerOf r i = Ok j /\ 0 <= j <= blen c /\ k = s64 (blen c - j)
  end.
Lemma while_bytes : forall c m, (List.length c <= m)%nat -> decWhile r dcall cenv (blen dat) m (TInt 8 None) c = Ok (map VInt c, []).
Proof.
  induction c as [|x c IH]; intros m L.
  - destruct m; reflexivity.
  - destruct m as [|m]; [cbn in L; lia|]. cbn [decWhile]. replace (blen (x :: c) <=? 0) with false by (unfold blen; cbn [List.length]; lia). cbn [decBase]. unfold decInt. change (8 / 8) with 1.
    replace (blen (x :: c) <? 1) with false by (unfold blen; cbn [List.length]; lia). change (Z.to_nat 1) with 1%nat. cbn [firstn skipn bind]. rewrite IH by (cbn in L; lia). reflexivity.
Qed.
Lemma bytes_type : forall a l c v c1, (List.length c <= n)%nat -> blen c <= 2 ^ 44 -> decType camel r dcall n cenv (blen dat) a (TVar (TInt 8 None) (Some l)) c = Ok (v, c1) <->
  exists k, extent a l c k /\ 0 <= k <= blen c /\ v = VList (map VInt (firstn (Z.to_nat k) c)) /\ c1 = skipn (Z.to_nat k) c.
Proof.
  intros a [f|i] c v c1 L M; cbn [decType extent tipe bind].
  - cbn [gsize]. split.
    + intros H. apply bind_ok in H as (x & R & H). destruct ((s64 x <? 0) || (maxAlloc <? s64 x * (8 / 8)))%bool eqn:G; [discriminate|].
      assert (0 <= s64 x) by (apply orb_false_iff in G; lia). exists (s64 x). split; [eauto|]. destruct (Z_le_gt_dec (s64 x) (blen c)) as [Y|Y].
      * pose proof (for_bytes r dcall cenv (blen dat) (Z.to_nat (s64 x)) n c) as F. rewrite Z2Nat.id in F by lia. rewrite F in H by (unfold blen in *; lia).
        replace (blen c <? s64 x) with false in H by lia. cbn [bind] in H. injection H as <- <-. split; [lia|]. auto.
      * exfalso. apply bind_ok in H as ([vs c2] & H & _).
        assert (Z0 : forall m c k, blen c < k -> forall q, decFor r dcall cenv (blen dat) m (TInt 8 None) k c <> Ok q).
        { induction m as [|m IH]; intros c0 k K q E; cbn [decFor] in E; (replace (k <=? 0) with false in E by (unfold blen in K; lia)); [discriminate|].
          cbn [decBase] in E. unfold decInt in E. change (8 / 8) with 1 in E. destruct c0 as [|y c0]; [discriminate|]. destruct (blen (y :: c0) <? 1); [discriminate|].
          change (Z.to_nat 1) with 1%nat in E. cbn [firstn skipn bind] in E. apply bind_ok in E as ([us c3] & E & _). revert E. apply IH. unfold blen in *. cbn [List.length] in K. lia. }
        eapply Z0; [|exact H]. lia.
    + intros (k & (x & R & ->) & K & -> & ->). rewrite R. cbn [bind]. change (8 / 8) with 1. unfold maxAlloc.
      replace ((s64 x <? 0) || (281474976710656 <? s64 x * 1))%bool with false by lia.
      pose proof (for_bytes r dcall cenv (blen dat) (Z.to_nat (s64 x)) n c) as F. rewrite Z2Nat.id in F by lia. rewrite F by (unfold blen in *; lia).
      replace (blen c <? s64 x) with false by lia. reflexivity.
  - split.
    + intros H. apply bind_ok in H as (j & R & H). unfold decLeaving in H. destruct (j <? 0) eqn:E1; [discriminate|]. destruct (blen c <? j) eqn:E2; [discriminate|].
      apply within_ok in H as (K & -> & H). rewrite while_bytes in H by (rewrite firstn_length; lia). cbn [bind] in H. injection H as <-.
      exists (s64 (blen c - j)). split; [exists j; split; auto; split; auto; lia|]. auto.
    + intros (k & (j & R & J & ->) & K & -> & ->). rewrite R. cbn [bind]. unfold decLeaving. replace (j <? 0) with false by lia. replace (blen c <? j) with false by lia.
      apply within_ok. split; auto. split; auto. rewrite while_bytes by (rewrite firstn_length; lia). reflexivity.
Qed.
Notation body cs tag a := (fun c => x <- refVal camel a cenv tag ;; decPick camel r dcall n cenv dat cs x cs a c).
Lemma union_type : forall u tag l cs a c a1 c1, decMember camel r dcall n cenv (blen dat) (MUnion u tag (Some l) cs) a c = Ok (a1, c1) <->
  exists k, extent a l c k /\ 0 <= k <= blen c /\ c1 = skipn (Z.to_nat k) c /\ body cs tag a (firstn (Z.to_nat k) c) = Ok (a1, []).
Proof.
  intros u tag [f|i] cs a c a1 c1; rewrite decMember_union; cbv zeta; cbn [decConstr extent]; split.
  - intros H. apply bind_ok in H as (x & R & H). apply within_ok in H as (K & -> & H). exists (s64 x). split; eauto.
  - intros (k & (x & R & ->) & K & -> & H). rewrite R. cbn [bind]. apply within_ok. auto.
  - intros H. apply bind_ok in H as (j & R & H). unfold decLeaving in H. destruct (j <? 0) eqn:E1; [discriminate|]. destruct (blen c <? j) eqn:E2; [discriminate|].
    apply within_ok in H as (K & -> & H). exists (s64 (blen c - j)). split; [exists j; split; auto; split; auto; lia|]. auto.
  - intros (k & (j & R & J & ->) & K & -> & H). rewrite R. cbn [bind]. unfold decLeaving. replace (j <? 0) with false by lia. replace (blen c <? j) with false by lia.
    apply within_ok. auto.
Qed.
Lemma union_err : forall u tag l cs a c k, extent a l c k -> 0 <= k <= blen c ->
  decMember camel r dcall n cenv (blen dat) (MUnion u tag (Some l) cs) a c =
    match body cs tag a (firstn (Z.to_nat k) c) with
    | Ok (a1, c1) => if 0 <? blen c1 then Err "trailing data disallowed" else Ok (a1, skipn (Z.to_nat k) c)
    | Err e => Err e | Panic m => Panic m | OutOfFuel => OutOfFuel
    end.
Proof.
  intros u tag l cs a c k EX K. assert (W : forall b : bytes -> outcome (amap value * bytes), decWithin k c b = match b (firstn (Z.to_nat k) c) with
    | Ok (a1, c1) => if 0 <? blen c1 then Err "trailing data disallowed" else Ok (a1, skipn (Z.to_nat k) c)
    | Err e => Err e | Panic m => Panic m | OutOfFuel => OutOfFuel end).
  { intros b. unfold decWithin. replace (blen c <? k) with false by lia. replace (k <? 0) with false by lia. destruct (b (firstn (Z.to_nat k) c)) as [[]| | |]; reflexivity. }
  destruct l as [f|i]; rewrite decMember_union; cbv zeta; cbn [decConstr extent] in *.
  - destruct EX as (x & R & ->). rewrite R. cbn [bind]. apply W.
  - destruct EX as (j & R & J & ->). rewrite R. cbn [bind]. unfold decLeaving. replace (j <? 0) with false by lia. replace (blen c <? j) with false by lia. apply W.
Qed.
End Extent.

Section Frame.
Variable camel : string -> string.
Variable os : nat -> orders.
Variable fs : list file.
Variable r : resolver.
Variable p : program.
Hypothesis PK : package camel os fs r p.
Variables s s' : struct.
Variables ms1 ms2 : list member.
Variables u nm : string.
Variable tag : idref.
Variable l : lconstraint.
Variable cs : list ucase.
Hypothesis DS : defines fs s.
Hypothesis DS' : defines fs s'.
Hypothesis EC : scontexts s' = scontexts s.
Notation un := (MUnion u tag (Some l) cs).
Notation ar := (MField nm (TVar (TInt 8 None) (Some l))).
Hypothesis EM : members_of s = ms1 ++ [un] ++ ms2.
Hypothesis EM' : members_of s' = ms1 ++ [ar] ++ ms2.
Variable data : bytes.
Variable args : list value.
Hypothesis VA : ctxValues camel r s args.
Hypothesis VD : goBytes data.
Hypothesis SZ : blen data <= 2 ^ 44.
Notation cv := (Constant r).
Notation key := (fun f : string * type => camel (fst f)).
Notation A := (flat_map allFields ms1).
Notation B := (flat_map allFields ms2).
Notation X := (Xs camel [un] [ar]).
Notation new := (blank camel cv s).
Notation new' := (blank camel cv s').
Notation cenv := (contextsOf s args).
Notation dms n := (decMembers camel r (decCall camel r n) n cenv (blen data)).

Lemma fr_check : checkStruct camel r s = true.
Proof. eapply pk_check; eauto. now apply (defines_in fs). Qed.
Lemma fr_check' : checkStruct camel r s' = true.
Proof. eapply pk_check; eauto. now apply (defines_in fs). Qed.
Lemma fr_known : forall m f, In m (members_of s') -> In f (usesOf m) -> rscope f = "" -> exists t, In (rname f, t) (A ++ B).
Proof.
  intros m f I J E. destruct (struct_uses camel r s' fr_check' m f I J E) as (z & cst & K). exists (TInt z cst). rewrite EM', !flat_map_app in K.
  apply in_app_or in K as [K|[K|K]]; [|discriminate K|]; apply in_or_app; auto.
Qed.
Lemma fr_out : forall m f, In m ms1 \/ In m ms2 -> In f (usesOf m) -> rscope f = "" -> exists t, In (rname f, t) (A ++ B).
Proof. intros m f I. apply fr_known. rewrite EM'. apply in_or_app. destruct I; [auto|right; now right]. Qed.
Lemma fr_apart : forall g, In g (map key (A ++ B)) -> ~ X g.
Proof. exact (sw_apart camel os fs r p PK s s' ms1 [un] [ar] ms2 DS DS' EM EM'). Qed.
Lemma fr_free : forall m, In m ms1 \/ In m ms2 -> free camel X m.
Proof. exact (sw_free camel os fs r p PK s s' ms1 [un] [ar] ms2 DS DS' EM EM' fr_out). Qed.
Lemma fr_start : agreeX X new new'.
Proof. exact (sw_start camel r s s' ms1 [un] [ar] ms2 EM EM'). Qed.
Lemma fr_call : validCall camel fs r s new data args.
Proof. constructor; auto. eapply blank_goStruct; eauto. now apply (defines_in fs). Qed.
Lemma fr_call' : validCall camel fs r s' new' data args.
Proof. constructor; auto. - unfold ctxValues in *. now rewrite EC. - eapply blank_goStruct; eauto. now apply (defines_in fs). Qed.
Lemma fr_cenv : contextsOf s' args = cenv.
Proof. unfold contextsOf. now rewrite EC. Qed.
Lemma fr_extent : forall a a' c k, agreeX X a a' -> extent camel r cenv a l c k <-> extent camel r cenv a' l c k.
Proof.
  intros a a' c k AG. assert (H : forall l0, l = l0 -> extent camel r cenv a l0 c k <-> extent camel r cenv a' l0 c k); [|now apply H].
  intros [f|i] El; cbn [extent]; [|reflexivity].
  replace (refVal camel a' cenv f) with (refVal camel a cenv f); [reflexivity|]. apply (ref_like camel X); auto. intros E.
  destruct (fr_known ar f) as [t K]; auto.
  - rewrite EM'. apply in_or_app. right. now left.
  - rewrite El. cbn. now left.
  - apply fr_apart. exact (in_map key _ _ K).
Qed.
(** The members around are decoded alike. *)
Lemma fr_around : forall n ms, (ms = ms1 \/ ms = ms2) -> forall a a' c, agreeX X a a' -> like X a a' (dms n ms a c) (dms n ms a' c).
Proof.
  intros n ms E a a' c AG. apply members_like; auto. apply Forall_forall. intros m I. apply fr_free. destruct E as [->| ->]; auto.
Qed.
Lemma fr_suffix : forall n ms a c a1 c1, dms n ms a c = Ok (a1, c1) -> exists w, c = w ++ c1.
Proof. intros n ms a c a1 c1 H. destruct (tame_members camel r (decCall camel r n) (leaves_call camel r n) n cenv data ms a c a1 c1 H) as [(w & E) _]. eauto. Qed.
Lemma fr_array_key : forall g, g = camel nm -> X g.
Proof. intros g ->. right. now left. Qed.
Lemma fr_union_key : forall g, In g (map key (allFields un)) -> X g.
Proof. intros g I. left. cbn [flat_map]. now rewrite app_nil_r. Qed.
Lemma fr_own : alookup (camel nm) new' <> None.
Proof.
  intros E. apply alookup_none_notin in E. apply E. unfold blank. rewrite map_map. cbn [fst]. rewrite EM', !flat_map_app, !map_app. apply in_or_app. right. now left.
Qed.

Definition around (a a' : amap value) : Prop := forall x t, In (x, t) (flat_map allFields (ms1 ++ ms2)) -> alookup (camel x) a = alookup (camel x) a'.
Lemma fr_around_of : forall a a', agreeX X a a' -> around a a'.
Proof. intros a a' AG x t I. apply AG. apply fr_apart. rewrite flat_map_app in I. exact (in_map key _ _ I). Qed.
Lemma dec_split : forall n b rest, decStruct camel r (S n) s new cenv data = Ok (b, rest) <->
  exists a c a1 c1, dms n ms1 new data = Ok (a, c) /\ decMember camel r (decCall camel r n) n cenv (blen data) un a c = Ok (a1, c1) /\ dms n ms2 a1 c1 = Ok (b, rest).
Proof.
  intros n b rest. cbn [decStruct]. rewrite EM, !members_app. cbn [decMembers app]. split.
  - intros H. apply bind_ok in H as ([a c] & H1 & H). apply bind_ok in H as ([a1 c1] & H2 & H). eauto 8.
  - intros (a & c & a1 & c1 & -> & H2 & H). cbn [bind]. now rewrite H2.
Qed.
Lemma dec_split' : forall n b rest, decStruct camel r (S n) s' new' (contextsOf s' args) data = Ok (b, rest) <->
  exists a c v c1, dms n ms1 new' data = Ok (a, c) /\ decType camel r (decCall camel r n) n cenv (blen data) a (TVar (TInt 8 None) (Some l)) c = Ok (v, c1) /\ dms n ms2 (assign (camel nm) v a) c1 = Ok (b, rest).
Proof.
  intros n b rest. rewrite fr_cenv. cbn [decStruct]. rewrite EM', !members_app. cbn [decMembers decMember app]. split.
  - intros H. apply bind_ok in H as ([a c] & H1 & H). apply bind_ok in H as ([a1 c1] & H2 & H). apply bind_ok in H2 as ([v c2] & H2 & E). injection E as <- <-. eauto 8.
  - intros (a & c & v & c1 & -> & H2 & H). cbn [bind]. rewrite H2. cbn [bind]. exact H.
Qed.
Notation far n := (n + List.length data)%nat.
Lemma far_enough : forall n a c a1, dms n ms1 a data = Ok (a1, c) -> (List.length c <= List.length data)%nat /\ blen c <= 2 ^ 44 /\ all_bytes c.
Proof.
  intros n a c a1 H. apply fr_suffix in H as [w E]. destruct VD as [AD _]. unfold blen in *. rewrite E in AD, SZ. rewrite E, app_length in *. split; [lia|]. split; [lia|]. unfold all_bytes in *. now apply Forall_app in AD.
Qed.

(** What is accepted with the union is accepted with the array. *)
Theorem frame_opaque : forall fs1 rest, parses camel p s new data args fs1 rest ->
  exists fs1' w, parses camel p s' new' data args fs1' rest /\ around fs1 fs1' /\ alookup (camel nm) fs1' = Some (VList (map VInt w)).
Proof.
  intros fs1 rest H. apply (parses_dec camel os fs r p PK _ _ _ _ fr_call) in H as [n H].
  assert (H' : decStruct camel r (S (far n)) s new cenv data = Ok (fs1, rest)).
  { eapply dec_final with (n := n); eauto; [discriminate|lia]. }
  clear H. remember (far n) as m eqn:Em. apply dec_split in H' as (a & c & a1 & c1 & H1 & H2 & H3).
  pose proof (far_enough _ _ _ _ H1) as (LC & BC & AB).
  pose proof (fr_around m ms1 (or_introl eq_refl) new new' data fr_start) as L1. rewrite H1 in L1.
  destruct (dms m ms1 new' data) as [[a' c']| | |] eqn:H1'; cbn [like] in L1; try contradiction. destruct L1 as (<- & AG & KE).
  pose proof H2 as HU. apply union_type in H2 as (k & EX & K & -> & H2).
  apply (fr_extent a a' c k AG) in EX. set (w := firstn (Z.to_nat k) c) in *.
  assert (HT : decType camel r (decCall camel r m) m cenv (blen data) a' (TVar (TInt 8 None) (Some l)) c = Ok (VList (map VInt w), skipn (Z.to_nat k) c)).
  { apply bytes_type; auto; [lia|]. exists k. auto. }
  assert (AG1 : agreeX X a1 (assign (camel nm) (VList (map VInt w)) a')).
  { intros g NG. rewrite alookup_assign_other by (intros ->; apply NG; now apply fr_array_key). rewrite <- (AG g NG).
    apply (member_keeps camel r (decCall camel r m) m cenv data un a c _ _ HU). intros I. apply NG. apply fr_union_key. unfold keys in I. cbn [flat_map] in I. now rewrite app_nil_r in I. }
  pose proof (fr_around m ms2 (or_intror eq_refl) _ _ (skipn (Z.to_nat k) c) AG1) as L2. rewrite H3 in L2.
  destruct (dms m ms2 (assign (camel nm) (VList (map VInt w)) a') (skipn (Z.to_nat k) c)) as [[b' c']| | |] eqn:H3'; cbn [like] in L2; try contradiction. destruct L2 as (<- & AG2 & KE2).
  exists b', w. split; [|split].
  - apply (parses_dec camel os fs r p PK _ _ _ _ fr_call'). exists (S m). apply dec_split'. eauto 8.
  - now apply fr_around_of.
  - destruct (KE2 (camel nm) (fr_array_key _ eq_refl)) as [_ ->]. rewrite alookup_assign, String.eqb_refl. destruct (KE (camel nm) (fr_array_key _ eq_refl)) as [_ ->].
    pose proof fr_own. destruct (alookup (camel nm) new'); congruence.
Qed.

(** The case reads the array. *)
Variable t : struct.
Variable v : Z.
Hypothesis DT : defines fs t.
Hypothesis ET : scontexts t = scontexts s.
Hypothesis NP : forallb noPtrM (members_of t) = true.
Hypothesis TK : (exists c, takes cv cs v c /\ members_of t = ucase_members c) \/ ((forall c, ~ takes cv cs v c) /\ members_of t = []).
Lemma fr_tag : rscope tag = "" -> exists ty, In (rname tag, ty) A.
Proof. exact (tag_before camel r s ms1 u tag (Some l) cs ms2 fr_check EM). Qed.
Notation newt := (blank camel cv t).
Notation T := (flat_map allFields (members_of t)).
Lemma fr_check_t : checkStruct camel r t = true.
Proof. eapply pk_check; eauto. now apply (defines_in fs). Qed.
Lemma fr_one : one_default cs.
Proof.
  pose proof fr_check as C. unfold checkStruct in C. do 4 (apply andb_true_iff in C as [C _]). apply andb_true_iff in C as [_ C].
  rewrite EM, forallb_app in C. apply andb_true_iff in C as [_ C]. cbn [forallb app] in C. apply andb_true_iff in C as [C _]. cbn [defaultsM] in C.
  apply andb_true_iff in C as [C _]. now apply oneDefaultb_spec in C.
Qed.
Lemma fr_body : forall dcall n a c, refers camel cenv a tag v ->
  (x <- refVal camel a cenv tag ;; decPick camel r dcall n cenv data cs x cs a c) = decMembers camel r dcall n cenv (blen data) (members_of t) a c.
Proof.
  intros dcall n a c R. rewrite (proj2 (refVal_refers camel cenv a tag v) R). cbn [bind].
  destruct (pick_spec camel r dcall n cenv data cs v a c cs [] eq_refl (Forall_nil _)) as [(c1 & T1 & E)|[N E]]; rewrite E; clear E.
  - destruct TK as [(c2 & T2 & ->)|[N _]]; [|destruct (N _ T1)]. now rewrite (takes_unique _ _ _ _ _ fr_one T1 T2).
  - destruct TK as [(c2 & T2 & _)|[_ ->]]; [destruct (N _ T2)|]. reflexivity.
Qed.
Lemma fr_sub : forall f, In f T -> In f (allFields un).
Proof.
  intros f I. destruct TK as [(c & TC & E)|[_ E]]; rewrite E in I; [|destruct I]. apply (takes_in r) in TC. cbn [allFields]. apply in_flat_map. exists c. split; auto. destruct c. exact I.
Qed.
Lemma fr_newt : forall a, (forall g, X g -> alookup g a = alookup g new) -> agreeOn camel (namesIn (members_of t)) a newt.
Proof.
  intros a K x I. unfold namesIn in I. apply in_map_iff in I as ([y ty] & E & I). cbn [fst] in E. subst y.
  rewrite K by (apply fr_union_key; exact (in_map key _ _ (fr_sub _ I))). unfold blank.
  rewrite (alookup_in _ (camel x) (blankOf cv ty)); [|rewrite map_map; eapply struct_nodup; eauto; now apply (defines_in fs)|apply in_map_iff; exists (x, ty); split; auto; rewrite EM, !flat_map_app; apply in_or_app; right; apply in_or_app; left; cbn [flat_map]; rewrite app_nil_r; now apply fr_sub].
  rewrite (alookup_in _ (camel x) (blankOf cv ty)); [reflexivity|rewrite map_map; eapply struct_nodup; eauto; now apply (defines_in fs)|apply in_map_iff; exists (x, ty); auto].
Qed.
Lemma fr_shift : forall dir n n' c a a' (d d' : bytes), (if dir : bool then n <= n' else n' <= n)%nat -> agreeOn camel (namesIn (members_of t)) a a' ->
  rel dir (kept camel (namesIn (members_of t)) a a') (decMembers camel r (decCall camel r n) n cenv (blen d) (members_of t) a c) (decMembers camel r (decCall camel r n') n' cenv (blen d') (members_of t) a' c).
Proof.
  intros dir n n' c a a' d d' L AG. eapply shift_members with (ctxs := scontexts t) (k := []); auto.
  - intros q q' c0 _ _. unfold ord. destruct dir; eapply call_mono; eauto.
  - intros x _. reflexivity.
  - exact (checked_members camel r t fr_check_t).
  - intros x [].
  - apply incl_refl.
Qed.
Lemma fr_call_t : forall w, goBytes w -> validCall camel fs r t newt w args.
Proof. intros w G. constructor; auto. - unfold ctxValues in *. now rewrite ET. - eapply blank_goStruct; eauto. now apply (defines_in fs). Qed.
Lemma fr_bytes : forall c k, all_bytes c -> blen c <= 2 ^ 44 -> goBytes (firstn k c).
Proof. intros c k AB L. split; [now apply all_bytes_firstn|]. unfold blen in *. rewrite firstn_length. unfold two63. lia. Qed.
Lemma fr_refers : forall a a', (forall x ty, In (x, ty) A -> alookup (camel x) a = alookup (camel x) a') -> refers camel cenv a tag v -> refers camel cenv a' tag v.
Proof. intros a a' H. apply refers_agree. intros E. destruct (fr_tag E) as [ty I]. eapply H; eauto. Qed.
Lemma fr_first : forall n a c x ty, In (x, ty) A -> forall ms b c1, dms n ms a c = Ok (b, c1) -> (forall f, In f (flat_map allFields ms) -> In f (allFields un) \/ In f (allFields ar) \/ In f B) ->
  alookup (camel x) b = alookup (camel x) a.
Proof.
  intros n a c x ty I ms b c1 H S. apply (members_keep camel r (decCall camel r n) n cenv data _ _ _ _ _ H). intros J. apply in_map_iff in J as (f & E & J).
  pose proof (struct_nodup camel os fs r p PK s (proj1 (defines_in fs s) DS)) as ND. pose proof (struct_nodup camel os fs r p PK s' (proj1 (defines_in fs s') DS')) as ND'.
  rewrite EM, !flat_map_app, !map_app in ND. rewrite EM', !flat_map_app, !map_app in ND'. cbn [flat_map] in ND, ND'. rewrite app_nil_r in ND, ND'.
  pose proof (in_map key _ _ I) as IA. cbn [fst] in IA. pose proof E as E0. cbn beta in E0.
  destruct (S f J) as [K|[K|K]]; apply (in_map key) in K; cbn beta in K; rewrite E0 in K.
  - apply (NoDup_app_disj _ _ _ ND IA). apply in_or_app. now left.
  - apply (NoDup_app_disj _ _ _ ND' IA). apply in_or_app. now left.
  - apply (NoDup_app_disj _ _ _ ND IA). apply in_or_app. now right.
Qed.
Definition inside (a at1 : amap value) : Prop := forall x ty, In (x, ty) T -> alookup (camel x) a = alookup (camel x) at1.
Lemma fr_outside : forall g, ~ X g -> ~ In g (map camel (namesIn (members_of t))).
Proof. intros g NG I. apply NG. apply fr_union_key. unfold namesIn in I. rewrite map_map in I. apply in_map_iff in I as (f & <- & I). apply (in_map key). now apply fr_sub. Qed.

Theorem frame_inside : forall fs1 rest, parses camel p s new data args fs1 rest -> refers camel cenv fs1 tag v ->
  exists fs1' w ft, parses camel p s' new' data args fs1' rest /\ refers camel cenv fs1' tag v /\ around fs1 fs1' /\ alookup (camel nm) fs1' = Some (VList (map VInt w)) /\
    parses camel p t newt w args ft [] /\ inside fs1 ft.
Proof.
  intros fs1 rest H R. apply (parses_dec camel os fs r p PK _ _ _ _ fr_call) in H as [n H].
  assert (H' : decStruct camel r (S (far n)) s new cenv data = Ok (fs1, rest)).
  { eapply dec_final with (n := n); eauto; [discriminate|lia]. }
  clear H. remember (far n) as m eqn:Em. apply dec_split in H' as (a & c & a1 & c1 & H1 & H2 & H3).
  pose proof (far_enough _ _ _ _ H1) as (LC & BC & AB).
  pose proof (fr_around m ms1 (or_introl eq_refl) new new' data fr_start) as L1. rewrite H1 in L1.
  destruct (dms m ms1 new' data) as [[a' c']| | |] eqn:H1'; cbn [like] in L1; try contradiction. destruct L1 as (<- & AG & KE).
  assert (RA : refers camel cenv a tag v).
  { revert R. apply fr_refers. intros x ty I. eapply (fr_first m a c x ty I ([un] ++ ms2) fs1 rest).
    - rewrite members_app. cbn [decMembers]. rewrite H2. cbn [bind]. exact H3.
    - intros f J. rewrite flat_map_app in J. cbn [flat_map] in J. rewrite app_nil_r in J. apply in_app_or in J as [J|J]; auto. }
  apply union_type in H2 as (k & EX & K & -> & H2). rewrite (fr_body _ _ _ _ RA) in H2.
  apply (fr_extent a a' c k AG) in EX. set (w := firstn (Z.to_nat k) c) in *.
  assert (HT : decType camel r (decCall camel r m) m cenv (blen data) a' (TVar (TInt 8 None) (Some l)) c = Ok (VList (map VInt w), skipn (Z.to_nat k) c)).
  { apply bytes_type; auto; [lia|]. exists k. auto. }
  pose proof (fr_shift true m m w a newt data w (le_n m) (fr_newt a (fun g G => proj1 (KE g G)))) as SH. rewrite H2 in SH.
  destruct (decMembers camel r (decCall camel r m) m cenv (blen w) (members_of t) newt w) as [[ft cw]| | |] eqn:HW; cbn [rel] in SH; try contradiction; try discriminate SH. destruct SH as (<- & AGT & KT & _).
  assert (AG1 : agreeX X a1 (assign (camel nm) (VList (map VInt w)) a')).
  { intros g NG. rewrite alookup_assign_other by (intros ->; apply NG; now apply fr_array_key). rewrite <- (AG g NG). now apply KT, fr_outside. }
  pose proof (fr_around m ms2 (or_intror eq_refl) _ _ (skipn (Z.to_nat k) c) AG1) as L2. rewrite H3 in L2.
  destruct (dms m ms2 (assign (camel nm) (VList (map VInt w)) a') (skipn (Z.to_nat k) c)) as [[b' c']| | |] eqn:H3'; cbn [like] in L2; try contradiction. destruct L2 as (<- & AG2 & KE2).
  exists b', w, ft. split; [|split; [|split; [|split; [|split]]]].
  - apply (parses_dec camel os fs r p PK _ _ _ _ fr_call'). exists (S m). apply dec_split'. eauto 8.
  - revert R. apply fr_refers. intros x ty I. apply AG2. apply fr_apart. apply (in_map key _ (x, ty)). apply in_or_app. now left.
  - now apply fr_around_of.
  - destruct (KE2 (camel nm) (fr_array_key _ eq_refl)) as [_ ->]. rewrite alookup_assign, String.eqb_refl. destruct (KE (camel nm) (fr_array_key _ eq_refl)) as [_ ->].
    pose proof fr_own. destruct (alookup (camel nm) new'); congruence.
  - apply (parses_dec camel os fs r p PK _ _ _ _ (fr_call_t w (fr_bytes c _ AB BC))). exists (S m). cbn [decStruct]. replace (contextsOf t args) with cenv by (unfold contextsOf; now rewrite ET). exact HW.
  - intros x ty I. destruct (KE2 (camel x) (fr_union_key _ (in_map key _ _ (fr_sub _ I)))) as [-> _]. apply AGT. unfold namesIn. exact (in_map fst _ _ I).
Qed.
Lemma map_int_inj : forall w w', map VInt w = map VInt w' -> w = w'.
Proof. induction w as [|x w IH]; intros [|y w'] E; try discriminate; auto. cbn in E. injection E as -> E. f_equal. auto. Qed.
Theorem frame_back : forall fs1' rest w ft, parses camel p s' new' data args fs1' rest -> refers camel cenv fs1' tag v -> alookup (camel nm) fs1' = Some (VList (map VInt w)) ->
  parses camel p t newt w args ft [] -> exists fs1, parses camel p s new data args fs1 rest /\ refers camel cenv fs1 tag v /\ around fs1 fs1' /\ inside fs1 ft.
Proof.
  intros fs1' rest w ft H R W HT. apply (parses_dec camel os fs r p PK _ _ _ _ fr_call') in H as [n H].
  assert (HB : forall m, (n <= S m)%nat -> decStruct camel r (S m) s' new' (contextsOf s' args) data = Ok (fs1', rest)).
  { intros m L. eapply dec_final with (n := n); eauto. discriminate. }
  assert (GW : goBytes w).
  { pose proof (HB (far n) ltac:(lia)) as H'. remember (far n) as m eqn:Em. apply dec_split' in H' as (a' & c & vv & c1 & H1 & H2 & H3).
    pose proof (far_enough _ _ _ _ H1) as (LC & BC & AB). apply bytes_type in H2 as (k & _ & _ & -> & ->); auto; [|lia].
    pose proof (members_keep camel r (decCall camel r m) m cenv data _ _ _ _ _ H3 (camel nm)) as MK. rewrite MK in W.
    - rewrite alookup_assign, String.eqb_refl in W. destruct (alookup (camel nm) a'); [|discriminate W]. injection W as W. apply map_int_inj in W. subst w. now apply fr_bytes.
    - intros I. apply (fr_apart (camel nm)); [|now apply fr_array_key]. unfold keys in I. rewrite map_app. apply in_or_app. now right. }
  apply (parses_dec camel os fs r p PK _ _ _ _ (fr_call_t w GW)) in HT as [n2 HT].
  assert (HT' : decStruct camel r (S (far (n + n2))) t newt (contextsOf t args) w = Ok (ft, [])).
  { eapply dec_final with (n := n2); eauto; [discriminate|lia]. }
  pose proof (HB (far (n + n2)) ltac:(lia)) as H'. clear HB H HT. remember (far (n + n2)) as m eqn:Em. apply dec_split' in H' as (a' & c & vv & c1 & H1' & H2 & H3').
  pose proof (far_enough _ _ _ _ H1') as (LC & BC & AB).
  pose proof (fr_around m ms1 (or_introl eq_refl) new new' data fr_start) as L1. rewrite H1' in L1.
  destruct (dms m ms1 new data) as [[a c']| | |] eqn:H1; cbn [like] in L1; try contradiction. destruct L1 as (-> & AG & KE).
  assert (RA : refers camel cenv a tag v).
  { assert (RA' : refers camel cenv a' tag v).
    { revert R. apply fr_refers. intros x ty I. eapply (fr_first m a' c x ty I ([ar] ++ ms2) fs1' rest).
      - rewrite members_app. cbn [decMembers decMember]. rewrite H2. cbn [bind]. exact H3'.
      - intros f J. rewrite flat_map_app in J. cbn [flat_map] in J. rewrite app_nil_r in J. apply in_app_or in J as [J|J]; auto. }
    revert RA'. apply fr_refers. intros x ty I. symmetry. apply AG. apply fr_apart. apply (in_map key _ (x, ty)). apply in_or_app. now left. }
  apply bytes_type in H2 as (k & EX & K & -> & ->); auto; [|lia].
  assert (EW : firstn (Z.to_nat k) c = w).
  { pose proof (members_keep camel r (decCall camel r m) m cenv data _ _ _ _ _ H3' (camel nm)) as MK. rewrite MK in W.
    - rewrite alookup_assign, String.eqb_refl in W. destruct (alookup (camel nm) a'); [|discriminate W]. injection W as W. now apply map_int_inj in W.
    - intros I. apply (fr_apart (camel nm)); [|now apply fr_array_key]. unfold keys in I. rewrite map_app. apply in_or_app. now right. }
  rewrite EW in *. apply (fr_extent a a' c k AG) in EX.
  cbn [decStruct] in HT'. replace (contextsOf t args) with cenv in HT' by (unfold contextsOf; now rewrite ET).
  assert (NA : agreeOn camel (namesIn (members_of t)) newt a) by (intros x I; symmetry; exact (fr_newt a (fun g G => proj1 (KE g G)) x I)).
  pose proof (fr_shift true m m w newt a w data (le_n m) NA) as SH. rewrite HT' in SH.
  destruct (decMembers camel r (decCall camel r m) m cenv (blen data) (members_of t) a w) as [[a1 cw]| | |] eqn:HW; cbn [rel] in SH; try contradiction; try discriminate SH. destruct SH as (<- & AGT & KT & _).
  assert (HU : decMember camel r (decCall camel r m) m cenv (blen data) un a c = Ok (a1, skipn (Z.to_nat k) c)).
  { apply union_type. exists k. split; auto. split; auto. split; auto. rewrite EW, (fr_body _ _ _ _ RA). exact HW. }
  assert (AG1 : agreeX X a1 (assign (camel nm) (VList (map VInt w)) a')).
  { intros g NG. rewrite alookup_assign_other by (intros ->; apply NG; now apply fr_array_key). rewrite <- (AG g NG). now apply KT, fr_outside. }
  pose proof (fr_around m ms2 (or_intror eq_refl) _ _ (skipn (Z.to_nat k) c) AG1) as L2. rewrite H3' in L2.
  destruct (dms m ms2 a1 (skipn (Z.to_nat k) c)) as [[b c']| | |] eqn:H3; cbn [like] in L2; try contradiction. destruct L2 as (-> & AG2 & KE2).
  exists b. split; [|split; [|split]].
  - apply (parses_dec camel os fs r p PK _ _ _ _ fr_call). exists (S m). apply dec_split. eauto 8.
  - revert R. apply fr_refers. intros x ty I. symmetry. apply AG2. apply fr_apart. apply (in_map key _ (x, ty)). apply in_or_app. now left.
  - now apply fr_around_of.
  - intros x ty I. destruct (KE2 (camel x) (fr_union_key _ (in_map key _ _ (fr_sub _ I)))) as [-> _]. symmetry. apply AGT. unfold namesIn. exact (in_map fst _ _ I).
Qed.
(** Where the array is read but the case fails on it. *)
Theorem frame_fails : forall fs1' rest w e, parses camel p s' new' data args fs1' rest -> refers camel cenv fs1' tag v -> alookup (camel nm) fs1' = Some (VList (map VInt w)) ->
  fails camel p t newt w args e \/ (e = "trailing data disallowed" /\ exists ft left, parses camel p t newt w args ft left /\ left <> []) ->
  fails camel p s new data args e.
Proof.
  intros fs1' rest w e H R W HT. apply (parses_dec camel os fs r p PK _ _ _ _ fr_call') in H as [n H].
  assert (HB : forall m, (n <= S m)%nat -> decStruct camel r (S m) s' new' (contextsOf s' args) data = Ok (fs1', rest)).
  { intros m L. eapply dec_final with (n := n); eauto. discriminate. }
  assert (GW : goBytes w).
  { pose proof (HB (far n) ltac:(lia)) as H'. remember (far n) as m eqn:Em. apply dec_split' in H' as (a' & c & vv & c1 & H1 & H2 & H3).
    pose proof (far_enough _ _ _ _ H1) as (LC & BC & AB). apply bytes_type in H2 as (k & _ & _ & -> & ->); auto; [|lia].
    pose proof (members_keep camel r (decCall camel r m) m cenv data _ _ _ _ _ H3 (camel nm)) as MK. rewrite MK in W.
    - rewrite alookup_assign, String.eqb_refl in W. destruct (alookup (camel nm) a'); [|discriminate W]. injection W as W. apply map_int_inj in W. subst w. now apply fr_bytes.
    - intros I. apply (fr_apart (camel nm)); [|now apply fr_array_key]. unfold keys in I. rewrite map_app. apply in_or_app. now right. }
  assert (HT0 : exists n2, let o := decStruct camel r n2 t newt (contextsOf t args) w in o = Err e \/ (e = "trailing data disallowed" /\ exists ft left, o = Ok (ft, left) /\ left <> [])).
  { destruct HT as [HT|(-> & ft & left & HT & NE)].
    - apply (fails_dec camel os fs r p PK _ _ _ _ (fr_call_t w GW)) in HT as [n2 HT]. exists n2. auto.
    - apply (parses_dec camel os fs r p PK _ _ _ _ (fr_call_t w GW)) in HT as [n2 HT]. exists n2. right. eauto. }
  clear HT. destruct HT0 as [n2 HT].
  assert (HT' : decStruct camel r (S (far (n + n2))) t newt (contextsOf t args) w = decStruct camel r n2 t newt (contextsOf t args) w).
  { eapply dec_final with (n := n2); eauto; [|lia]. destruct HT as [->|(_ & ft & left & -> & _)]; discriminate. }
  pose proof (HB (far (n + n2)) ltac:(lia)) as H'. cbv zeta in HT. rewrite <- HT' in HT. clear HB H HT'. remember (far (n + n2)) as m eqn:Em. apply dec_split' in H' as (a' & c & vv & c1 & H1' & H2 & H3').
  pose proof (far_enough _ _ _ _ H1') as (LC & BC & AB).
  pose proof (fr_around m ms1 (or_introl eq_refl) new new' data fr_start) as L1. rewrite H1' in L1.
  destruct (dms m ms1 new data) as [[a c']| | |] eqn:H1; cbn [like] in L1; try contradiction. destruct L1 as (-> & AG & KE).
  assert (RA : refers camel cenv a tag v).
  { assert (RA' : refers camel cenv a' tag v).
    { revert R. apply fr_refers. intros x ty I. eapply (fr_first m a' c x ty I ([ar] ++ ms2) fs1' rest).
      - rewrite members_app. cbn [decMembers decMember]. rewrite H2. cbn [bind]. exact H3'.
      - intros f J. rewrite flat_map_app in J. cbn [flat_map] in J. rewrite app_nil_r in J. apply in_app_or in J as [J|J]; auto. }
    revert RA'. apply fr_refers. intros x ty I. symmetry. apply AG. apply fr_apart. apply (in_map key _ (x, ty)). apply in_or_app. now left. }
  apply bytes_type in H2 as (k & EX & K & -> & ->); auto; [|lia].
  assert (EW : firstn (Z.to_nat k) c = w).
  { pose proof (members_keep camel r (decCall camel r m) m cenv data _ _ _ _ _ H3' (camel nm)) as MK. rewrite MK in W.
    - rewrite alookup_assign, String.eqb_refl in W. destruct (alookup (camel nm) a'); [|discriminate W]. injection W as W. now apply map_int_inj in W.
    - intros I. apply (fr_apart (camel nm)); [|now apply fr_array_key]. unfold keys in I. rewrite map_app. apply in_or_app. now right. }
  rewrite EW in *. apply (fr_extent a a' c k AG) in EX.
  cbn [decStruct] in HT. replace (contextsOf t args) with cenv in HT by (unfold contextsOf; now rewrite ET).
  assert (NA : agreeOn camel (namesIn (members_of t)) newt a) by (intros x I; symmetry; exact (fr_newt a (fun g G => proj1 (KE g G)) x I)).
  pose proof (fr_shift true m m w newt a w data (le_n m) NA) as SH.
  apply (fails_dec camel os fs r p PK _ _ _ _ fr_call). exists (S m). cbn [decStruct]. rewrite EM, !members_app, H1. cbn [bind]. rewrite members_app. cbn [decMembers].
  rewrite (union_err camel r (decCall camel r m) m cenv data u tag l cs a c k EX K), EW, (fr_body _ _ _ _ RA).
  destruct HT as [HT|(-> & ft & left & HT & NE)]; rewrite HT in SH;
    (destruct (decMembers camel r (decCall camel r m) m cenv (blen data) (members_of t) a w) as [[a1 cw]| | |] eqn:HW; cbn [rel] in SH; try contradiction; try discriminate SH).
  - rewrite <- SH. reflexivity.
  - destruct SH as (<- & _). destruct left as [|y left]; [congruence|]. replace (0 <? blen (y :: left)) with true by (unfold blen; cbn [List.length]; lia). reflexivity.
Qed.
End Frame.
