(** A union decodes as the members of the case that its tag selects. *)
From Coq Require Import ZArith String List Bool Lia ZifyBool ZifyNat.
From Verif Require Import Base Ast IntervalsModel InspectModel InspectSpec InspectProofs BranchProofs GoLang GenModel GenDecode GenCheck GenSim GenSimBody GenSimProg GenMono WireSpec WireProofs WireComplete WireFacts GenTerm FwdProofs
  ReachProofs PackageSpec PackageProofs PackageFacts PackageMore ParseFacts IndepSpec UnrollProofs P_Unroll.
Import ListNotations.
Open Scope string_scope.
Open Scope list_scope.
Open Scope Z_scope.

Section Keep.
Variable camel : string -> string.
Variable r : resolver.
Variable dcall : string -> amap value -> bytes -> outcome (value * bytes).
Variable n : nat.
Variable cenv : amap value.
Variable dat : bytes.
Notation decM := (decMember camel r dcall n cenv (blen dat)).
Notation decMs := (decMembers camel r dcall n cenv (blen dat)).
Definition keys (ms : list member) : list string := map (fun f => camel (fst f)) (flat_map allFields ms).

(** Members leave the fields of others alone. *)
Definition keepsM (m : member) : Prop := forall fs c fs1 c1, decM m fs c = Ok (fs1, c1) -> forall g, ~ In g (keys [m]) -> alookup g fs1 = alookup g fs.
Lemma members_keep_of : forall ms, Forall keepsM ms -> forall fs c fs1 c1, decMs ms fs c = Ok (fs1, c1) -> forall g, ~ In g (keys ms) -> alookup g fs1 = alookup g fs.
Proof.
  induction ms as [|m ms IH]; intros F fs c fs1 c1 H g N; cbn [decMembers] in H.
  - injection H as <- <-. reflexivity.
  - inversion F as [|? ? F1 F2]; subst. apply bind_ok in H as ([fs2 c2] & H1 & H2). unfold keys in N. cbn [flat_map] in N. rewrite map_app in N.
    rewrite (IH F2 _ _ _ _ H2 g) by (intros I; apply N; apply in_or_app; auto). apply (F1 _ _ _ _ H1). unfold keys. cbn [flat_map]. rewrite app_nil_r. intros I. apply N. apply in_or_app; auto.
Qed.
Lemma member_keeps : forall m, keepsM m.
Proof.
  induction m as [nm t|u tag len cs IH| | |] using member_ind'; intros fs c fs1 c1 H g N.
  - cbn [decMember] in H. apply bind_ok in H as ([v c2] & _ & H). injection H as <- <-. apply alookup_assign_other. intros ->. apply N. now left.
  - rewrite decMember_union in H. cbv zeta in H.
    assert (B : forall c0 a c2, (x <- refVal camel fs cenv tag ;; decPick camel r dcall n cenv dat cs x cs fs c0) = Ok (a, c2) -> alookup g a = alookup g fs).
    { intros c0 a c2 E. apply bind_ok in E as (x & _ & E). rewrite decPick_choice in E. destruct (choice r x cs cs) as [ms|] eqn:CH; [|injection E as <- <-; reflexivity].
      apply choice_in in CH as [l I]. rewrite Forall_forall in IH. apply (members_keep_of ms (IH _ I) _ _ _ _ E).
      intros J. apply N. unfold keys in *. cbn [flat_map allFields]. rewrite app_nil_r. apply in_map_iff in J as (f & <- & J). apply (in_map (fun f => camel (fst f))).
      apply in_flat_map. exists (UCase l ms). auto. }
    destruct len as [[f|i]|]; cbn [decConstr] in H.
    + apply bind_ok in H as (k & _ & H). unfold decWithin in H. destruct (blen c <? s64 k); [discriminate|]. destruct (s64 k <? 0); [discriminate|].
      apply bind_ok in H as ([a c2] & H & E). destruct (0 <? blen c2); [discriminate|]. injection E as <- <-. eapply B; eauto.
    + apply bind_ok in H as (k & _ & H). unfold decLeaving, decWithin in H. destruct (k <? 0); [discriminate|]. destruct (blen c <? k); [discriminate|].
      destruct (blen c <? _); [discriminate|]. destruct (_ <? 0); [discriminate|].
      apply bind_ok in H as ([a c2] & H & E). destruct (0 <? blen c2); [discriminate|]. injection E as <- <-. eapply B; eauto.
    + eapply B; eauto.
  - cbn [decMember] in H. destruct (0 <? blen c); [discriminate|]. injection H as <- <-. reflexivity.
  - discriminate H.
  - injection H as <- <-. reflexivity.
Qed.
Lemma members_keep : forall ms fs c fs1 c1, decMs ms fs c = Ok (fs1, c1) -> forall g, ~ In g (keys ms) -> alookup g fs1 = alookup g fs.
Proof. intros ms. apply members_keep_of. apply Forall_forall. intros m _. apply member_keeps. Qed.

(** An integer that was read meets its constraint. *)
Lemma integer_held : forall ms nm sz l fs c fs1 c1, In (MField nm (TInt sz (Some l))) ms -> NoDup (keys ms) -> alookup (camel nm) fs <> None ->
  decMs ms fs c = Ok (fs1, c1) -> exists x, alookup (camel nm) fs1 = Some (VInt x) /\ inList r x l = true.
Proof.
  intros ms nm sz l fs c fs1 c1 I ND NN H. apply in_split in I as (pre & post & ->). rewrite members_app in H.
  apply bind_ok in H as ([fs2 c2] & H1 & H). cbn [decMembers decMember decType decBase] in H. apply bind_ok in H as ([fs3 c3] & H2 & H).
  apply bind_ok in H2 as ([v c4] & H2 & E). injection E as <- <-. unfold decInt in H2. destruct (blen c2 <? sz / 8); [discriminate|].
  destruct (inList r (be (firstn (Z.to_nat (sz / 8)) c2)) l) eqn:IL; [|discriminate]. injection H2 as <- <-.
  unfold keys in ND. rewrite flat_map_app, map_app in ND. cbn [flat_map allFields app map fst] in ND.
  exists (be (firstn (Z.to_nat (sz / 8)) c2)). split; auto.
  rewrite (members_keep _ _ _ _ _ H).
  - rewrite alookup_assign, String.eqb_refl. rewrite (members_keep _ _ _ _ _ H1).
    + destruct (alookup (camel nm) fs); congruence.
    + intros J. apply (NoDup_app_disj _ _ _ ND J). now left.
  - apply NoDup_app_r in ND. inversion ND; auto.
Qed.
End Keep.

(** A tag in the struct itself is a member before the union. *)
Lemma known_before : forall r ctxs m ms2 ms1 k, checkMembers r ctxs k (ms1 ++ m :: ms2) = true -> checkMember r ctxs (fold_left addKnown ms1 k) m = true.
Proof.
  intros r ctxs m ms2. induction ms1 as [|m1 ms1 IH]; intros k C; cbn [app checkMembers fold_left] in *; apply andb_true_iff in C as [C1 C2]; auto.
Qed.
Lemma known_in : forall n z ms1 k, alookup n (fold_left addKnown ms1 k) = Some z -> alookup n k = Some z \/ exists t, In (n, t) (flat_map allFields ms1).
Proof.
  intros n z. induction ms1 as [|m ms1 IH]; intros k H; cbn [fold_left flat_map] in *; auto.
  destruct (IH _ H) as [E|[t I]]; [|right; exists t; apply in_or_app; auto].
  destruct m as [x []| | | |]; cbn [addKnown] in E; auto. cbn [alookup] in E. destruct (String.eqb_spec n x) as [->|N]; auto. right. eexists. left. reflexivity.
Qed.
Lemma tag_before : forall camel r s ms1 u tag len cs ms2, checkStruct camel r s = true -> members_of s = ms1 ++ MUnion u tag len cs :: ms2 ->
  rscope tag = "" -> exists t, In (rname tag, t) (flat_map allFields ms1).
Proof.
  intros camel r s ms1 u tag len cs ms2 C EM E. pose proof (checked_members camel r s C) as CM. rewrite EM in CM. apply known_before in CM. cbn [checkMember] in CM.
  apply andb_true_iff in CM as [CM _]. apply andb_true_iff in CM as [CM _]. unfold refWidth in CM. rewrite E in CM. cbn [String.eqb] in CM.
  destruct (alookup (rname tag) (fold_left addKnown ms1 [])) as [z|] eqn:K; [|discriminate]. destruct (known_in _ _ _ _ K) as [X|X]; auto. discriminate X.
Qed.

Section Pick.
Variable camel : string -> string.
Variable os : nat -> orders.
Variable fs : list file.
Variable r : resolver.
Variable p : program.
Hypothesis PK : package camel os fs r p.
Variables s s' : struct.
Variables ms1 cm ms2 : list member.
Variable u : string.
Variable tag : idref.
Variable cs : list ucase.
Variable v : Z.
Hypothesis DS : defines fs s.
Hypothesis DS' : defines fs s'.
Hypothesis EC : scontexts s' = scontexts s.
Hypothesis EM : members_of s = ms1 ++ MUnion u tag None cs :: ms2.
Hypothesis EM' : members_of s' = ms1 ++ cm ++ ms2.
Hypothesis TK : (exists c, takes (Constant r) cs v c /\ cm = ucase_members c) \/ ((forall c, ~ takes (Constant r) cs v c) /\ cm = []).
Variable data : bytes.
Variable args : list value.
Hypothesis VA : ctxValues camel r s args.
Hypothesis VD : goBytes data.
Notation cv := (Constant r).
Notation F := (flat_map allFields (members_of s)).
Notation F' := (flat_map allFields (members_of s')).
Notation key := (fun f : string * type => camel (fst f)).
Definition Xo (g : string) : Prop := In g (map key F) /\ ~ In g (map key F').
Notation new := (blank camel cv s).
Notation new' := (blank camel cv s').
Notation cenv := (contextsOf s args).

Lemma pi_check : checkStruct camel r s = true.
Proof. eapply pk_check; eauto. now apply (defines_in fs). Qed.
Lemma pi_check' : checkStruct camel r s' = true.
Proof. eapply pk_check; eauto. now apply (defines_in fs). Qed.
Lemma pi_nodup : NoDup (map key F).
Proof. eapply struct_nodup; eauto. now apply (defines_in fs). Qed.
Lemma pi_nodup' : NoDup (map key F').
Proof. eapply struct_nodup; eauto. now apply (defines_in fs). Qed.
Lemma pi_sub : forall f, In f F' -> In f F.
Proof.
  intros f I. rewrite EM' in I. rewrite EM. rewrite !flat_map_app in *. cbn [flat_map]. apply in_app_or in I as [I|I]; apply in_or_app; auto. right.
  apply in_app_or in I as [I|I]; apply in_or_app; auto. left. destruct TK as [(c & T & ->)|[_ ->]]; [|destruct I].
  apply (takes_in r) in T. cbn [allFields]. apply in_flat_map. exists c. split; auto. destruct c. exact I.
Qed.
Lemma pi_free : forall m, In m (members_of s') -> free camel Xo m.
Proof.
  intros m I. split.
  - intros x t J [_ N]. apply N. apply (in_map key _ (x, t)). apply in_flat_map. eauto.
  - intros f J E [_ N]. destruct (struct_uses camel r s' pi_check' m f I J E) as (sz & cst & K). apply N. exact (in_map key _ _ K).
Qed.
Lemma pi_start : agreeX Xo new new'.
Proof.
  intros g NX. unfold blank.
  destruct (in_dec string_dec g (map key F')) as [I|I].
  - apply in_map_iff in I as ([x t] & <- & I). cbn [fst].
    assert (IF : In (x, t) F) by now apply pi_sub.
    rewrite (alookup_in _ (camel x) (blankOf cv t)); [|rewrite map_map; exact pi_nodup|apply in_map_iff; exists (x, t); auto].
    rewrite (alookup_in _ (camel x) (blankOf cv t)); [reflexivity|rewrite map_map; exact pi_nodup'|apply in_map_iff; exists (x, t); auto].
  - rewrite !look_none; auto; rewrite map_map; cbn [fst]; auto. intros J. apply NX. now split.
Qed.
Lemma pi_one : one_default cs.
Proof.
  pose proof pi_check as C. unfold checkStruct in C. do 4 (apply andb_true_iff in C as [C _]). apply andb_true_iff in C as [_ C].
  rewrite EM, forallb_app in C. apply andb_true_iff in C as [_ C]. cbn [forallb] in C. apply andb_true_iff in C as [C _]. cbn [defaultsM] in C.
  apply andb_true_iff in C as [C _]. now apply oneDefaultb_spec in C.
Qed.
Lemma pi_union : forall dcall n (d : bytes) a c, refers camel cenv a tag v ->
  decMember camel r dcall n cenv (blen d) (MUnion u tag None cs) a c = decMembers camel r dcall n cenv (blen d) cm a c.
Proof.
  intros dcall n d a c R. rewrite decMember_union. cbv zeta. rewrite (proj2 (refVal_refers camel cenv a tag v) R). cbn [bind].
  destruct (pick_spec camel r dcall n cenv d cs v a c cs [] eq_refl (Forall_nil _)) as [(c1 & T1 & E)|[N E]]; rewrite E; clear E.
  - destruct TK as [(c2 & T2 & ->)|[N _]]; [|destruct (N _ T1)]. now rewrite (takes_unique _ _ _ _ _ pi_one T1 T2).
  - destruct TK as [(c2 & T2 & _)|[_ ->]]; [destruct (N _ T2)|]. reflexivity.
Qed.
Lemma pi_step : forall n,
  (forall a c, decMembers camel r (decCall camel r n) n cenv (blen data) ms1 new data = Ok (a, c) -> refers camel cenv a tag v) ->
  like Xo new new' (decStruct camel r (S n) s new cenv data) (decStruct camel r (S n) s' new' (contextsOf s' args) data).
Proof.
  intros n R. cbn [decStruct]. replace (contextsOf s' args) with cenv by (unfold contextsOf; now rewrite EC).
  assert (FR : Forall (free camel Xo) (ms1 ++ cm ++ ms2)) by (apply Forall_forall; intros m I; apply pi_free; now rewrite EM').
  apply Forall_app in FR as [F1 F2]. apply Forall_app in F2 as [F2 F3].
  rewrite EM, EM', !members_app.
  pose proof (members_like camel r Xo (decCall camel r n) n cenv data ms1 F1 new new' data pi_start) as L1.
  destruct (decMembers camel r (decCall camel r n) n cenv (blen data) ms1 new data) as [[a c]|e|m|], (decMembers camel r (decCall camel r n) n cenv (blen data) ms1 new' data) as [[a' c']|e'|m'|];
    cbn [like] in L1; try contradiction; try (cbn [bind like]; auto; fail).
  specialize (R a c eq_refl). cbn [bind]. destruct L1 as (-> & AG & KE). cbn [decMembers]. rewrite (pi_union _ _ _ _ _ R), members_app.
  pose proof (members_like camel r Xo (decCall camel r n) n cenv data cm F2 a a' c' AG) as L2.
  assert (L3 : like Xo a a' ('(fs1, c1) <- decMembers camel r (decCall camel r n) n cenv (blen data) cm a c' ;; decMembers camel r (decCall camel r n) n cenv (blen data) ms2 fs1 c1)
    ('(fs1, c1) <- decMembers camel r (decCall camel r n) n cenv (blen data) cm a' c' ;; decMembers camel r (decCall camel r n) n cenv (blen data) ms2 fs1 c1)).
  { eapply like_bind; [exact L2|]. intros b b' c1 A1 _. now apply members_like. }
  destruct (bind _ _) as [[b c1]| | |], (bind _ _) as [[b' c1']| | |]; cbn [like] in *; auto. destruct L3 as (E & A3 & K3). split; auto. split; auto.
  intros g G. destruct (K3 g G) as [-> ->]. auto.
Qed.

Lemma pi_call : validCall camel fs r s new data args.
Proof. constructor; auto. eapply blank_goStruct; eauto. now apply (defines_in fs). Qed.
Lemma pi_call' : validCall camel fs r s' new' data args.
Proof. constructor; auto. - unfold ctxValues in *. now rewrite EC. - eapply blank_goStruct; eauto. now apply (defines_in fs). Qed.
(** Equal in all fields of the struct without the union; those of the other cases are as they were. *)
Definition sameFields (a a' : amap value) : Prop :=
  (forall x t, In (x, t) F' -> alookup (camel x) a = alookup (camel x) a') /\
  (forall x t, In (x, t) (allFields (MUnion u tag None cs)) -> ~ In (x, t) (flat_map allFields cm) -> alookup (camel x) a = Some (blankOf cv t)).
Lemma key_inj : forall f g : string * type, In f F -> In g F -> key f = key g -> f = g.
Proof.
  pose proof pi_nodup as ND. revert ND. generalize F. induction l as [|h l IH]; intros ND f g I J E; [destruct I|].
  cbn [map] in ND. inversion ND as [|? ? N D]; subst. destruct I as [->|I], J as [->|J]; auto.
  - exfalso. apply N. rewrite E. now apply (in_map key).
  - exfalso. apply N. rewrite <- E. now apply (in_map key).
Qed.
Lemma pi_same : forall a a', agreeX Xo a a' -> (forall g, Xo g -> alookup g a = alookup g new /\ alookup g a' = alookup g new') -> sameFields a a'.
Proof.
  intros a a' A K. split.
  - intros x t I. apply A. intros [_ N]. apply N. exact (in_map key _ _ I).
  - intros x t I N. assert (IF : In (x, t) F) by (rewrite EM, flat_map_app; apply in_or_app; right; cbn [flat_map]; apply in_or_app; now left).
    destruct (K (camel x)) as [-> _].
    + split; [exact (in_map key _ _ IF)|]. intros J. apply in_map_iff in J as (g & E & J). rewrite (key_inj g (x, t) (pi_sub g J) IF E) in J.
      pose proof pi_nodup as ND. rewrite EM', !flat_map_app in J. rewrite EM, flat_map_app, map_app in ND. cbn [flat_map] in ND. rewrite map_app in ND.
      apply in_app_or in J as [J|J].
      * apply (NoDup_app_disj _ _ (camel x) ND); [exact (in_map key _ _ J)|]. apply in_or_app. left. exact (in_map key _ _ I).
      * apply in_app_or in J as [J|J]; [contradiction|]. apply NoDup_app_r in ND. apply (NoDup_app_disj _ _ (camel x) ND); [exact (in_map key _ _ I)|exact (in_map key _ _ J)].
    + unfold blank. rewrite (alookup_in _ (camel x) (blankOf cv t)); [reflexivity|rewrite map_map; exact pi_nodup|apply in_map_iff; exists (x, t); auto].
Qed.
Lemma TF : rscope tag = "" -> exists t, In (rname tag, t) (flat_map allFields ms1).
Proof. exact (tag_before camel r s ms1 u tag None cs ms2 pi_check EM). Qed.
Lemma pi_tag : forall n a c b c1, decMembers camel r (decCall camel r n) n cenv (blen data) ms1 new data = Ok (a, c) ->
  decStruct camel r (S n) s new cenv data = Ok (b, c1) -> refers camel cenv b tag v -> refers camel cenv a tag v.
Proof.
  intros n a c b c1 H1 H R. cbn [decStruct] in H. rewrite EM, members_app, H1 in H. cbn [bind] in H. revert R. apply refers_agree. intros E.
  destruct (TF E) as [t I]. apply (members_keep camel r (decCall camel r n) n cenv data _ _ _ _ _ H). intros J.
  pose proof pi_nodup as ND. rewrite EM, flat_map_app, map_app in ND. apply (NoDup_app_disj _ _ (camel (rname tag)) ND); auto. exact (in_map key _ _ I).
Qed.
Lemma pi_tag' : forall n a' c b' c1, decMembers camel r (decCall camel r n) n cenv (blen data) ms1 new' data = Ok (a', c) ->
  decStruct camel r (S n) s' new' (contextsOf s' args) data = Ok (b', c1) -> refers camel cenv b' tag v -> refers camel cenv a' tag v.
Proof.
  intros n a' c b' c1 H1 H R. cbn [decStruct] in H. replace (contextsOf s' args) with cenv in H by (unfold contextsOf; now rewrite EC).
  rewrite EM', members_app, H1 in H. cbn [bind] in H. revert R. apply refers_agree. intros E.
  destruct (TF E) as [t I]. apply (members_keep camel r (decCall camel r n) n cenv data _ _ _ _ _ H). intros J.
  pose proof pi_nodup' as ND. rewrite EM', flat_map_app, map_app in ND. apply (NoDup_app_disj _ _ (camel (rname tag)) ND); auto. exact (in_map key _ _ I).
Qed.
Lemma pi_refers : forall a a', agreeX Xo a a' -> refers camel cenv a tag v <-> refers camel cenv a' tag v.
Proof.
  intros a a' A. assert (E : rscope tag = "" -> alookup (camel (rname tag)) a = alookup (camel (rname tag)) a').
  { intros E. destruct (TF E) as [t I]. apply A. intros [_ N]. apply N. rewrite EM', flat_map_app. apply (in_map key _ (rname tag, t)). apply in_or_app. auto. }
  split; apply refers_agree; auto. intros X. symmetry. auto.
Qed.
Lemma pi_start1 : forall n a c, decMembers camel r (decCall camel r n) n cenv (blen data) ms1 new data = Ok (a, c) ->
  exists a', decMembers camel r (decCall camel r n) n cenv (blen data) ms1 new' data = Ok (a', c) /\ agreeX Xo a a'.
Proof.
  intros n a c H. assert (FR : Forall (free camel Xo) (ms1 ++ cm ++ ms2)) by (apply Forall_forall; intros m I; apply pi_free; now rewrite EM').
  apply Forall_app in FR as [F1 _]. pose proof (members_like camel r Xo (decCall camel r n) n cenv data ms1 F1 new new' data pi_start) as L1. rewrite H in L1.
  destruct (decMembers camel r (decCall camel r n) n cenv (blen data) ms1 new' data) as [[a' c']| | |]; cbn [like] in L1; try contradiction. destruct L1 as (-> & A & _). eauto.
Qed.

(** Both ways. *)
Theorem pick_parses :
  (forall fs1 rest, parses camel p s new data args fs1 rest -> refers camel cenv fs1 tag v ->
     exists fs1', parses camel p s' new' data args fs1' rest /\ refers camel cenv fs1' tag v /\ sameFields fs1 fs1') /\
  (forall fs1' rest, parses camel p s' new' data args fs1' rest -> refers camel cenv fs1' tag v ->
     exists fs1, parses camel p s new data args fs1 rest /\ refers camel cenv fs1 tag v /\ sameFields fs1 fs1').
Proof.
  pose proof pi_call as VC. pose proof pi_call' as VC'. split; intros b rest H R.
  - apply (parses_dec camel os fs r p PK _ _ _ _ VC) in H as [[|n] H]; [discriminate H|].
    pose proof (pi_step n (fun a c E => pi_tag n a c b rest E H R)) as L. rewrite H in L.
    destruct (decStruct camel r (S n) s' new' (contextsOf s' args) data) as [[b' c']| | |] eqn:E; cbn [like] in L; try contradiction. destruct L as (<- & A & K).
    exists b'. split; [apply (parses_dec camel os fs r p PK _ _ _ _ VC'); eauto|]. split; [now apply (pi_refers b b' A)|now apply pi_same].
  - apply (parses_dec camel os fs r p PK _ _ _ _ VC') in H as [[|n] H]; [discriminate H|].
    assert (R1 : forall a c, decMembers camel r (decCall camel r n) n cenv (blen data) ms1 new data = Ok (a, c) -> refers camel cenv a tag v).
    { intros a c E. destruct (pi_start1 n a c E) as (a' & E' & A). apply (pi_refers a a' A). exact (pi_tag' n a' c b rest E' H R). }
    pose proof (pi_step n R1) as L. rewrite H in L.
    destruct (decStruct camel r (S n) s new cenv data) as [[b' c']| | |] eqn:E; cbn [like] in L; try contradiction. destruct L as (-> & A & K).
    exists b'. split; [apply (parses_dec camel os fs r p PK _ _ _ _ VC); eauto|]. split; [now apply (pi_refers b' b A)|now apply pi_same].
Qed.

(** If the tag can be nothing else, in every respect. *)
Hypothesis ONLY : (rscope tag = "" /\ exists sz l, In (MField (rname tag) (TInt sz (Some l))) ms1 /\ forall z, in_list cv l z -> z = v) \/
  (rscope tag <> "" /\ refers camel cenv [] tag v).
Lemma pi_only : forall n a c, decMembers camel r (decCall camel r n) n cenv (blen data) ms1 new data = Ok (a, c) -> refers camel cenv a tag v.
Proof.
  intros n a c H. destruct ONLY as [(E & sz & l & I & U)|[E R]].
  - assert (IN : In (rname tag, TInt sz (Some l)) F) by (rewrite EM, flat_map_app; apply in_or_app; left; apply in_flat_map; eexists; split; [exact I|now left]).
    destruct (integer_held camel r (decCall camel r n) n cenv data ms1 (rname tag) sz l new data a c I) as (x & A & IL); auto.
    + pose proof pi_nodup as ND. rewrite EM, flat_map_app, map_app in ND. now apply NoDup_app_l in ND.
    + unfold blank. rewrite (alookup_in _ (camel (rname tag)) (blankOf cv (TInt sz (Some l)))); [discriminate|rewrite map_map; exact pi_nodup|].
      apply in_map_iff. exists (rname tag, TInt sz (Some l)). auto.
    + apply inList_spec in IL. unfold refers. rewrite E. cbn [String.eqb]. rewrite A. now rewrite (U x IL).
  - revert R. apply refers_agree. intros X. contradiction.
Qed.
Theorem pick_same :
  (forall fs1 rest, parses camel p s new data args fs1 rest -> exists fs1', parses camel p s' new' data args fs1' rest /\ sameFields fs1 fs1') /\
  (forall fs1' rest, parses camel p s' new' data args fs1' rest -> exists fs1, parses camel p s new data args fs1 rest /\ sameFields fs1 fs1') /\
  (forall e, fails camel p s new data args e <-> fails camel p s' new' data args e) /\
  (forall m, panics camel p s new data args m <-> panics camel p s' new' data args m) /\
  (neverEnds camel p s new data args <-> neverEnds camel p s' new' data args).
Proof.
  pose proof pi_call as VC. pose proof pi_call' as VC'.
  assert (ST : forall n, like Xo new new' (decStruct camel r n s new cenv data) (decStruct camel r n s' new' (contextsOf s' args) data)).
  { intros [|n]; [exact I|]. apply pi_step. apply pi_only. }
  split; [|split; [|split; [|split]]].
  - intros b rest H. apply (parses_dec camel os fs r p PK _ _ _ _ VC) in H as [n H]. specialize (ST n). rewrite H in ST.
    destruct (decStruct camel r n s' new' (contextsOf s' args) data) as [[b' c']| | |] eqn:E; cbn [like] in ST; try contradiction. destruct ST as (<- & A & K).
    exists b'. split; [apply (parses_dec camel os fs r p PK _ _ _ _ VC'); eauto|now apply pi_same].
  - intros b' rest H. apply (parses_dec camel os fs r p PK _ _ _ _ VC') in H as [n H]. specialize (ST n). rewrite H in ST.
    destruct (decStruct camel r n s new cenv data) as [[b c]| | |] eqn:E; cbn [like] in ST; try contradiction. destruct ST as (-> & A & K).
    exists b. split; [apply (parses_dec camel os fs r p PK _ _ _ _ VC); eauto|now apply pi_same].
  - intros e. rewrite (fails_dec camel os fs r p PK _ _ _ _ VC), (fails_dec camel os fs r p PK _ _ _ _ VC'). split; intros [n H]; exists n; specialize (ST n); rewrite H in ST;
    [destruct (decStruct camel r n s' new' (contextsOf s' args) data) as [[]| | |]|destruct (decStruct camel r n s new cenv data) as [[]| | |]]; cbn [like] in ST; try contradiction; congruence.
  - intros e. rewrite (panics_dec camel os fs r p PK _ _ _ _ VC), (panics_dec camel os fs r p PK _ _ _ _ VC'). split; intros [n H]; exists n; specialize (ST n); rewrite H in ST;
    [destruct (decStruct camel r n s' new' (contextsOf s' args) data) as [[]| | |]|destruct (decStruct camel r n s new cenv data) as [[]| | |]]; cbn [like] in ST; try contradiction; congruence.
  - unfold neverEnds. split; intros H n.
    + apply (run_fuel camel os fs r p PK _ _ _ _ VC'). specialize (ST n). rewrite (proj1 (run_fuel camel os fs r p PK _ _ _ _ VC n) (H n)) in ST.
      destruct (decStruct camel r n s' new' (contextsOf s' args) data) as [[]| | |]; cbn [like] in ST; try contradiction; reflexivity.
    + apply (run_fuel camel os fs r p PK _ _ _ _ VC). specialize (ST n). rewrite (proj1 (run_fuel camel os fs r p PK _ _ _ _ VC' n) (H n)) in ST.
      destruct (decStruct camel r n s new cenv data) as [[]| | |]; cbn [like] in ST; try contradiction; reflexivity.
Qed.
End Pick.
