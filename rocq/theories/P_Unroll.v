(** Property C96: an array with a fixed number of elements is that many members in a row. *)
From Coq Require Import ZArith String List Bool Lia ZifyBool ZifyNat.
From Verif Require Import Base Ast IntervalsModel InspectModel InspectSpec InspectProofs GoLang GenModel GenDecode GenCheck GenSim GenSimBody GenSimProg GenMono WireSpec WireProofs WireComplete WireFacts GenTerm FwdProofs
  PackageSpec PackageProofs PackageFacts PackageMore GenExamples GenWitness IndepSpec UnrollProofs.
Import ListNotations.
Open Scope string_scope.
Open Scope list_scope.
Open Scope Z_scope.

(** Lengths and tags of checked members are integers parsed before or among their fields. *)
Lemma known_uses_of : forall r ctxs ms,
  Forall (fun m => forall k, checkMember r ctxs k m = true -> forall f, In f (usesOf m) -> rscope f = "" ->
    (exists sz, In (rname f, sz) k) \/ exists sz cst, In (rname f, TInt sz cst) (allFields m)) ms ->
  forall k, checkMembers r ctxs k ms = true -> forall m f, In m ms -> In f (usesOf m) -> rscope f = "" ->
    (exists sz, In (rname f, sz) k) \/ exists sz cst, In (rname f, TInt sz cst) (flat_map allFields ms).
Proof.
  intros r ctxs ms. induction ms as [|m1 ms IH]; intros F k C m f I J E; [destruct I|].
  inversion F as [|? ? F1 F2]; subst. cbn [checkMembers] in C. apply andb_true_iff in C as [C1 C2]. cbn [flat_map].
  destruct I as [<-|I].
  - destruct (F1 k C1 f J E) as [K|(sz & cst & K)]; auto. right. exists sz, cst. apply in_or_app. auto.
  - destruct (IH F2 _ C2 m f I J E) as [[sz K]|(sz & cst & K)].
    + destruct m1 as [n t|u tag len cs| | |]; cbn [addKnown] in K; eauto. destruct t as [sz' cst| | | | | |]; eauto.
      destruct K as [K|K]; eauto. injection K as -> ->. right. exists sz, cst. now left.
    + right. exists sz, cst. apply in_or_app. auto.
Qed.
Lemma width_known : forall r ctxs k f sz, rscope f = "" -> refWidth r ctxs k f = Some sz -> In (rname f, sz) k.
Proof. intros r ctxs k f sz E H. unfold refWidth in H. rewrite E in H. cbn in H. now apply alookup_some_in. Qed.
Lemma known_uses : forall r ctxs m k, checkMember r ctxs k m = true -> forall f, In f (usesOf m) -> rscope f = "" ->
    (exists sz, In (rname f, sz) k) \/ exists sz cst, In (rname f, TInt sz cst) (allFields m).
Proof.
  intros r ctxs. induction m as [nm t|u tag len cs IH| | |] using member_ind'; intros k C f I E; try destruct I.
  - left. cbn [checkMember] in C. cbn [usesOf] in I.
    assert (NB : forall b, checkBase r ctxs b = true -> lengthsIn b = []) by (intros b; destruct b; cbn; auto; discriminate).
    destruct t as [| | | | |b i|b [[g|i]|]]; cbn [checkType lengthsIn] in C, I; try (destruct I; fail).
    + apply andb_true_iff in C as [C _]. rewrite (NB b C) in I. destruct I.
    + apply andb_true_iff in C as [C1 C2]. rewrite (NB b C1) in I. destruct I as [<-|[]]. destruct (refWidth r ctxs k g) as [sz|] eqn:W; [|discriminate].
      exists sz. eapply width_known; eauto.
    + apply andb_true_iff in C as [C _]. rewrite (NB b C) in I. destruct I.
    + rewrite (NB b C) in I. destruct I.
  - cbn [checkMember] in C. apply andb_true_iff in C as [C C3]. apply andb_true_iff in C as [C1 C2]. subst f.
    destruct (refWidth r ctxs k tag) as [sz|] eqn:W; [|discriminate]. left. exists sz. eapply width_known; eauto.
  - cbn [checkMember] in C. apply andb_true_iff in C as [C C3]. apply andb_true_iff in C as [C1 C2]. apply in_app_or in H as [H|H].
    + destruct len as [[g|i]|]; [|destruct H|destruct H]. destruct H as [<-|[]]. destruct (refWidth r ctxs k g) as [sz|] eqn:W; [|discriminate]. left. exists sz. eapply width_known; eauto.
    + apply in_flat_map in H as ([l ms] & H & J). apply in_flat_map in J as (m & J & K). rewrite forallb_forall in C3. specialize (C3 _ H). cbn beta iota in C3. apply andb_true_iff in C3 as [_ C3].
      assert (C4 : checkMembers r ctxs k ms = true).
      { rewrite <- C3. clear. revert k. induction ms as [|m ms IH]; intros k; cbn [checkMembers]; auto. now rewrite IH. }
      rewrite Forall_forall in IH. destruct (known_uses_of r ctxs ms (IH _ H) k C4 m f J K E) as [X|(sz & cst & X)]; auto.
      right. exists sz, cst. cbn [allFields]. apply in_flat_map. exists (UCase l ms). auto.
Qed.
Lemma struct_uses : forall camel r s, checkStruct camel r s = true -> forall m f, In m (members_of s) -> In f (usesOf m) -> rscope f = "" ->
  exists sz cst, In (rname f, TInt sz cst) (flat_map allFields (members_of s)).
Proof.
  intros camel r s C m f I J E. destruct (known_uses_of r (scontexts s) (members_of s)) with (k := @nil (string * Z)) (m := m) (f := f) as [[sz []]|X]; auto.
  - apply Forall_forall. intros m' _ k. apply known_uses.
  - now apply (checked_members camel r).
Qed.

Lemma look_app : forall g (l l' : amap value), alookup g (l ++ l') = match alookup g l with Some v => Some v | None => alookup g l' end.
Proof. intros g l l'. induction l as [|[x v] l IH]; cbn; auto. destruct (String.eqb g x); auto. Qed.
Lemma look_none : forall g (l : amap value), ~ In g (map fst l) -> alookup g l = None.
Proof. intros g l. induction l as [|[x v] l IH]; intros N; cbn in *; auto. destruct (String.eqb_spec g x) as [->|]; [tauto|]. apply IH. tauto. Qed.

Lemma alookup_none_notin : forall g (l : amap value), alookup g l = None -> ~ In g (map fst l).
Proof. intros g l. induction l as [|[x v] l IH]; intros H; cbn in *; auto. destruct (String.eqb_spec g x) as [->|]; [discriminate|]. intros [->|I]; [congruence|]. now apply IH. Qed.
Lemma Forall2_in_impl : forall {A B} (P Q : A -> B -> Prop) l l', (forall a b, In a l -> P a b -> Q a b) -> Forall2 P l l' -> Forall2 Q l l'.
Proof. intros A B P Q l l' H F. induction F; constructor; [apply H; auto; now left|]. apply IHF. intros a b I. apply H. now right. Qed.

Lemma fields_each : forall b names, flat_map allFields (map (fun x => MField x b) names) = map (fun x => (x, b)) names.
Proof. induction names as [|x l IH]; cbn [map flat_map allFields app]; auto. now rewrite IH. Qed.
Lemma checked_one : forall r ctxs m ms2 ms1 k, checkMembers r ctxs k (ms1 ++ m :: ms2) = true -> exists k', checkMember r ctxs k' m = true.
Proof. induction ms1 as [|m1 ms IH]; intros k C; cbn [app checkMembers] in C; apply andb_true_iff in C as [C1 C2]; eauto. Qed.

Section Pack.
Variable camel : string -> string.
Variable os : nat -> orders.
Variable fs : list file.
Variable r : resolver.
Variable p : program.
Hypothesis PK : package camel os fs r p.
Variables s s' : struct.
Variables ms1 ms2 : list member.
Variable nm : string.
Variable b : type.
Variable i : integer.
Variable names : list string.
Hypothesis DS : defines fs s.
Hypothesis DS' : defines fs s'.
Hypothesis EC : scontexts s' = scontexts s.
Hypothesis EM : members_of s = ms1 ++ MField nm (TFixed b i) :: ms2.
Hypothesis EM' : members_of s' = ms1 ++ map (fun x => MField x b) names ++ ms2.
Hypothesis EI : int_value (Constant r) i = Some (blen names).
Notation cv := (Constant r).
Notation key := (fun f : string * type => camel (fst f)).
Notation A := (flat_map allFields ms1).
Notation B := (flat_map allFields ms2).
Definition X (g : string) : Prop := g = camel nm \/ In g (map camel names).

Lemma fields_s : flat_map allFields (members_of s) = A ++ (nm, TFixed b i) :: B.
Proof. rewrite EM, flat_map_app. reflexivity. Qed.
Lemma fields_s' : flat_map allFields (members_of s') = A ++ map (fun x => (x, b)) names ++ B.
Proof. rewrite EM', !flat_map_app. f_equal. f_equal. apply fields_each. Qed.
Lemma nodup_s : NoDup (map key (A ++ (nm, TFixed b i) :: B)).
Proof. rewrite <- fields_s. eapply struct_nodup; eauto. now apply (defines_in fs). Qed.
Lemma nodup_s' : NoDup (map key A ++ map camel names ++ map key B).
Proof.
  assert (N : NoDup (map key (flat_map allFields (members_of s')))) by (eapply struct_nodup; eauto; now apply (defines_in fs)).
  rewrite fields_s', !map_app, map_map in N. exact N.
Qed.
Lemma apart : forall g, In g (map key (A ++ B)) -> ~ X g.
Proof.
  intros g I [-> |J].
  - pose proof nodup_s as N. rewrite map_app in N, I. cbn [map fst] in N. apply NoDup_remove_2 in N. contradiction.
  - pose proof nodup_s' as N. rewrite map_app in I. apply in_app_or in I as [I|I].
    + apply (NoDup_app_disj _ _ g N I). apply in_or_app. auto.
    + apply NoDup_app_r in N. apply (NoDup_app_disj _ _ g N J I).
Qed.
Lemma check_s : checkStruct camel r s = true.
Proof. eapply pk_check; eauto. now apply (defines_in fs). Qed.
Lemma parts_free : forall m, In m ms1 \/ In m ms2 -> free camel X m.
Proof.
  intros m I. assert (I' : In m (members_of s)) by (rewrite EM; apply in_or_app; destruct I; [auto|right; now right]). split.
  - intros x t J. apply apart. apply (in_map key _ (x, t)). apply in_or_app. destruct I as [I|I]; [left|right]; apply in_flat_map; eauto.
  - intros f J E. destruct (struct_uses camel r s check_s m f I' J E) as (sz & cst & K). rewrite fields_s in K.
    apply apart. apply (in_map key _ (rname f, TInt sz cst)). apply in_app_or in K as [K|[K|K]]; [|discriminate K|]; apply in_or_app; auto.
Qed.
Lemma elem : element b.
Proof.
  assert (H : exists k, checkMember r (scontexts s) k (MField nm (TFixed b i)) = true).
  { pose proof (checked_members camel r s check_s) as C. rewrite EM in C. exact (checked_one _ _ _ _ _ _ C). }
  destruct H as [k H]. cbn [checkMember checkType] in H. apply andb_true_iff in H as [H _]. destruct b; cbn in H |- *; auto; discriminate.
Qed.
Lemma start_agree : agreeX X (blank camel cv s) (blank camel cv s').
Proof.
  intros g N. unfold blank. rewrite fields_s, fields_s'. rewrite !map_app, !look_app. cbn [map app alookup fst].
  destruct (String.eqb_spec g (camel nm)) as [->|]; [destruct N; now left|].
  rewrite (look_none g (map _ (map _ names))); auto. rewrite !map_map. cbn [fst]. intros I. apply N. now right.
Qed.

Variable data : bytes.
Variable args : list value.
Hypothesis VA : ctxValues camel r s args.
Hypothesis VD : goBytes data.
Notation new := (blank camel cv s).
Notation new' := (blank camel cv s').
Notation dec n := (decStruct camel r n s new (contextsOf s args) data).
Notation dec' n := (decStruct camel r n s' new' (contextsOf s' args) data).
(** Same fields, elements in a list or in fields of their own. *)
Definition spread (a a' : amap value) : Prop :=
  (forall x t, In (x, t) (A ++ B) -> alookup (camel x) a = alookup (camel x) a') /\
  exists vs, alookup (camel nm) a = Some (VList vs) /\ Forall2 (fun x v => alookup (camel x) a' = Some v) names vs.

Lemma call_s : validCall camel fs r s new data args.
Proof. constructor; auto. eapply blank_goStruct; eauto. now apply (defines_in fs). Qed.
Lemma call_s' : validCall camel fs r s' new' data args.
Proof. constructor; auto. - unfold ctxValues in *. now rewrite EC. - eapply blank_goStruct; eauto. now apply (defines_in fs). Qed.

Lemma step_like : forall n, (List.length names <= n)%nat ->
  match dec (S n), dec' (S n) with
  | Ok (a, c), Ok (a', c') => c = c' /\ spread a a'
  | Err e, Err e' => e = e'
  | Panic e, Panic e' => e = e'
  | OutOfFuel, OutOfFuel => True
  | _, _ => False
  end.
Proof.
  intros n L. cbn [decStruct]. replace (contextsOf s' args) with (contextsOf s args) by (unfold contextsOf; now rewrite EC).
  rewrite EM, EM', !members_app. set (cenv := contextsOf s args).
  assert (F1 : Forall (free camel X) ms1) by (apply Forall_forall; intros m I; apply parts_free; auto).
  assert (F2 : Forall (free camel X) ms2) by (apply Forall_forall; intros m I; apply parts_free; auto).
  pose proof (members_like camel r X (decCall camel r n) n cenv data ms1 F1 new new' data start_agree) as L1.
  destruct (decMembers camel r (decCall camel r n) n cenv (blen data) ms1 new data) as [[a c]|e|m|], (decMembers camel r (decCall camel r n) n cenv (blen data) ms1 new' data) as [[a' c']|e'|m'|];
    cbn [like bind] in L1 |- *; try contradiction; auto.
  destruct L1 as (-> & AG & KE). rewrite members_app. rewrite (unrolled camel r X (decCall camel r n) n cenv data b names n a' c' elem L).
  cbn [decMembers decMember decType]. rewrite (proj2 (integerOf_value r i (blen names)) EI). cbn [bind].
  destruct (decFor r (decCall camel r n) cenv (blen data) n b (blen names) c') as [[vs c1]|e|m|] eqn:EF; cbn [bind]; auto.
  apply for_count in EF; [|unfold blen; lia].
  assert (LV : List.length vs = List.length names) by (unfold blen in EF; lia).
  set (a1 := assign (camel nm) (VList vs) a). set (a1' := setAll camel names vs a').
  assert (AG1 : agreeX X a1 a1').
  { intros g N. unfold a1, a1'. rewrite alookup_assign_other by (intros ->; apply N; now left). rewrite setAll_other by (intros I; apply N; now right). now apply AG. }
  assert (H1 : alookup (camel nm) a1 = Some (VList vs)).
  { unfold a1. rewrite alookup_assign, String.eqb_refl. destruct (KE (camel nm) (or_introl eq_refl)) as [-> _].
    destruct (alookup (camel nm) new) eqn:Q; auto. apply alookup_none_notin in Q. destruct Q. unfold blank. rewrite fields_s, !map_app. cbn [map fst]. apply in_or_app. right. now left. }
  assert (H2 : Forall2 (fun x v => alookup (camel x) a1' = Some v) names vs).
  { unfold a1'. apply setAll_found; auto.
    - pose proof nodup_s' as N. apply NoDup_app_r in N. now apply NoDup_app_l in N.
    - intros x I Q. assert (XI : In (camel x) (map camel names)) by now apply in_map. destruct (KE (camel x) (or_intror XI)) as [_ K]. rewrite Q in K. symmetry in K.
      apply alookup_none_notin in K. apply K. unfold blank. rewrite fields_s', !map_app, !map_map. cbn [fst]. apply in_or_app. right. apply in_or_app. left. exact XI. }
  pose proof (members_like camel r X (decCall camel r n) n cenv data ms2 F2 a1 a1' c1 AG1) as L2.
  destruct (decMembers camel r (decCall camel r n) n cenv (blen data) ms2 a1 c1) as [[a2 c2]|e|m|], (decMembers camel r (decCall camel r n) n cenv (blen data) ms2 a1' c1) as [[a2' c2']|e'|m'|];
    cbn [like] in L2 |- *; try contradiction; auto.
  destruct L2 as (-> & AG2 & KE2). split; auto. split.
  - intros x t I. apply AG2. apply apart. exact (in_map key _ _ I).
  - exists vs. split; [now rewrite (proj1 (KE2 (camel nm) (or_introl eq_refl)))|].
    revert H2. apply Forall2_in_impl. intros x v I H. rewrite (proj2 (KE2 (camel x) (or_intror (in_map camel _ _ I)))). exact H.
Qed.
End Pack.

(** C96. If one struct has an array of a fixed number of elements where another has that many
    members of the element type, then both accept the same data, use up the same part of it, and
    report the same errors.  The elements of the array are the values of those members, and the
    other fields agree. *)
Theorem C96_array : forall camel os fs r p, package camel os fs r p ->
  forall s s' ms1 nm b i names ms2, defines fs s -> defines fs s' -> scontexts s' = scontexts s ->
  members_of s = ms1 ++ MField nm (TFixed b i) :: ms2 -> members_of s' = ms1 ++ map (fun x => MField x b) names ++ ms2 ->
  int_value (Constant r) i = Some (blen names) ->
  forall data args, ctxValues camel r s args -> goBytes data ->
  let new := blank camel (Constant r) s in let new' := blank camel (Constant r) s' in
  let same (a a' : amap value) :=
    (forall x t, In (x, t) (flat_map allFields (ms1 ++ ms2)) -> alookup (camel x) a = alookup (camel x) a') /\
    exists vs, alookup (camel nm) a = Some (VList vs) /\ Forall2 (fun x v => alookup (camel x) a' = Some v) names vs in
  (forall fs1 rest, parses camel p s new data args fs1 rest -> exists fs1', parses camel p s' new' data args fs1' rest /\ same fs1 fs1') /\
  (forall fs1' rest, parses camel p s' new' data args fs1' rest -> exists fs1, parses camel p s new data args fs1 rest /\ same fs1 fs1') /\
  (forall e, fails camel p s new data args e <-> fails camel p s' new' data args e) /\
  (forall m, panics camel p s new data args m <-> panics camel p s' new' data args m) /\
  (neverEnds camel p s new data args <-> neverEnds camel p s' new' data args).
Proof.
  intros camel os fs r p PK s s' ms1 nm b i names ms2 DS DS' EC EM EM' EI data args VA VD new new' same.
  pose proof (call_s camel os fs r p PK s DS data args VA VD) as VC. pose proof (call_s' camel os fs r p PK s s' DS' EC data args VA VD) as VC'.
  pose proof (step_like camel os fs r p PK s s' ms1 ms2 nm b i names DS DS' EC EM EM' EI data args) as ST. fold new in VC, ST. fold new' in VC', ST.
  set (far := fun n => S (n + List.length names)).
  assert (FS : forall n, let o := decStruct camel r n s new (contextsOf s args) data in o <> OutOfFuel -> decStruct camel r (far n) s new (contextsOf s args) data = o).
  { intros n o N. eapply dec_final with (n := n); unfold far; eauto. lia. }
  assert (FS' : forall n, let o := decStruct camel r n s' new' (contextsOf s' args) data in o <> OutOfFuel -> decStruct camel r (far n) s' new' (contextsOf s' args) data = o).
  { intros n o N. eapply dec_final with (n := n); unfold far; eauto. lia. }
  assert (ST' : forall n, match decStruct camel r (far n) s new (contextsOf s args) data, decStruct camel r (far n) s' new' (contextsOf s' args) data with
    | Ok (a, c), Ok (a', c') => c = c' /\ same a a' | Err e, Err e' => e = e' | Panic e, Panic e' => e = e' | OutOfFuel, OutOfFuel => True | _, _ => False end).
  { intros n. specialize (ST (n + List.length names)%nat ltac:(lia)). unfold far.
    destruct (decStruct camel r _ s new _ data) as [[a c]| | |], (decStruct camel r _ s' new' _ data) as [[a' c']| | |]; auto.
    destruct ST as [-> [S1 S2]]. split; auto. split; auto. intros x t I. apply (S1 x t). now rewrite <- flat_map_app. }
  split; [|split; [|split; [|split]]].
  - intros fs1 rest H. apply (parses_dec camel os fs r p PK _ _ _ _ VC) in H as [n H]. specialize (FS n). rewrite H in FS. specialize (FS ltac:(discriminate)). specialize (ST' n). rewrite FS in ST'.
    destruct (decStruct camel r (far n) s' new' _ data) as [[a' c']| | |] eqn:E; try contradiction. destruct ST' as [<- S]. exists a'. split; auto.
    apply (parses_dec camel os fs r p PK _ _ _ _ VC'). eauto.
  - intros fs1 rest H. apply (parses_dec camel os fs r p PK _ _ _ _ VC') in H as [n H]. specialize (FS' n). rewrite H in FS'. specialize (FS' ltac:(discriminate)). specialize (ST' n). rewrite FS' in ST'.
    destruct (decStruct camel r (far n) s new _ data) as [[a c]| | |] eqn:E; try contradiction. destruct ST' as [-> S]. exists a. split; auto.
    apply (parses_dec camel os fs r p PK _ _ _ _ VC). eauto.
  - intros e. rewrite (fails_dec camel os fs r p PK _ _ _ _ VC), (fails_dec camel os fs r p PK _ _ _ _ VC'). split; intros [n H]; exists (far n); specialize (ST' n).
    + specialize (FS n). rewrite H in FS. rewrite (FS ltac:(discriminate)) in ST'. destruct (decStruct camel r (far n) s' new' _ data) as [[a' c']| | |]; try contradiction. congruence.
    + specialize (FS' n). rewrite H in FS'. rewrite (FS' ltac:(discriminate)) in ST'. destruct (decStruct camel r (far n) s new _ data) as [[a c]| | |]; try contradiction. congruence.
  - intros e. rewrite (panics_dec camel os fs r p PK _ _ _ _ VC), (panics_dec camel os fs r p PK _ _ _ _ VC'). split; intros [n H]; exists (far n); specialize (ST' n).
    + specialize (FS n). rewrite H in FS. rewrite (FS ltac:(discriminate)) in ST'. destruct (decStruct camel r (far n) s' new' _ data) as [[a' c']| | |]; try contradiction. congruence.
    + specialize (FS' n). rewrite H in FS'. rewrite (FS' ltac:(discriminate)) in ST'. destruct (decStruct camel r (far n) s new _ data) as [[a c]| | |]; try contradiction. congruence.
  - unfold neverEnds. split; intros H n.
    + apply (run_fuel camel os fs r p PK _ _ _ _ VC'). destruct (decStruct camel r n s' new' (contextsOf s' args) data) as [q|e|m|] eqn:E; auto; exfalso;
      specialize (FS' n); rewrite E in FS'; specialize (FS' ltac:(discriminate)); specialize (ST' n); rewrite FS' in ST'; rewrite (proj1 (run_fuel camel os fs r p PK _ _ _ _ VC (far n)) (H (far n))) in ST'; auto.
    + apply (run_fuel camel os fs r p PK _ _ _ _ VC). destruct (decStruct camel r n s new (contextsOf s args) data) as [q|e|m|] eqn:E; auto; exfalso;
      specialize (FS n); rewrite E in FS; specialize (FS ltac:(discriminate)); specialize (ST' n); rewrite FS in ST'; rewrite (proj1 (run_fuel camel os fs r p PK _ _ _ _ VC' (far n)) (H (far n))) in ST'; [destruct q as [a c]|..]; exact ST'.
Qed.
Print Assumptions C96_array.

(** [struct cell { u8 n; u8 xs[n]; } struct row { u8 k; struct cell c[3]; u8 ys[k]; }
     struct row3 { u8 k; struct cell c0; struct cell c1; struct cell c2; u8 ys[k]; }]. *)
Definition cellS := mkStruct "cell" [] (Some [u8 "n"; MField "xs" (TVar (TInt 8 None) (Some (LRef (local "n"))))]).
Definition ysM := MField "ys" (TVar (TInt 8 None) (Some (LRef (local "k")))).
Definition rowS := mkStruct "row" [] (Some [u8 "k"; MField "c" (TFixed (TStruct "cell") (ILit 3)); ysM]).
Definition row3S := mkStruct "row3" [] (Some [u8 "k"; MField "c0" (TStruct "cell"); MField "c1" (TStruct "cell"); MField "c2" (TStruct "cell"); ysM]).
Lemma row_package : package camelX osX (one [cellS; rowS; row3S]) (theRes (one [cellS; rowS; row3S])) (theProg (one [cellS; rowS; row3S])).
Proof. apply package_of; vm_compute; reflexivity. Qed.
Definition cellV xs := VStruct "Cell" [("N", VInt (blen xs)); ("Xs", VList (map VInt xs))].
Example C96_case : package camelX osX (one [cellS; rowS; row3S]) (theRes (one [cellS; rowS; row3S])) (theProg (one [cellS; rowS; row3S])) /\
  defines (one [cellS; rowS; row3S]) rowS /\ defines (one [cellS; rowS; row3S]) row3S /\
  members_of rowS = [u8 "k"] ++ MField "c" (TFixed (TStruct "cell") (ILit 3)) :: [ysM] /\
  members_of row3S = [u8 "k"] ++ map (fun x => MField x (TStruct "cell")) ["c0"; "c1"; "c2"] ++ [ysM] /\
  int_value (Constant (theRes (one [cellS; rowS; row3S]))) (ILit 3) = Some (blen ["c0"; "c1"; "c2"]) /\
  parses camelX (theProg (one [cellS; rowS; row3S])) rowS (blank camelX (Constant (theRes (one [cellS; rowS; row3S]))) rowS) [1; 0; 2; 7; 8; 1; 9; 5] []
    [("K", VInt 1); ("C", VList [cellV []; cellV [7; 8]; cellV [9]]); ("Ys", VList [VInt 5])] [] /\
  parses camelX (theProg (one [cellS; rowS; row3S])) row3S (blank camelX (Constant (theRes (one [cellS; rowS; row3S]))) row3S) [1; 0; 2; 7; 8; 1; 9; 5] []
    [("K", VInt 1); ("C0", cellV []); ("C1", cellV [7; 8]); ("C2", cellV [9]); ("Ys", VList [VInt 5])] [].
Proof.
  assert (G : goBytes [1; 0; 2; 7; 8; 1; 9; 5]) by (apply bytes_ok; vm_compute; reflexivity).
  assert (V : forall s, In s [rowS; row3S] -> validCall camelX (one [cellS; rowS; row3S]) (theRes (one [cellS; rowS; row3S])) s (blank camelX (Constant (theRes (one [cellS; rowS; row3S]))) s) [1; 0; 2; 7; 8; 1; 9; 5] []).
  { intros s I. apply (fresh_call [cellS; rowS; row3S] s); [vm_compute; reflexivity|now right|destruct I as [<-|[<-|[]]]; reflexivity|destruct I as [<-|[<-|[]]]; reflexivity|exact G]. }
  split; [exact row_package|]. split; [apply (V rowS); cbn; auto|]. split; [apply (V row3S); cbn; auto|]. split; [reflexivity|]. split; [reflexivity|]. split; [reflexivity|]. split.
  - apply (parses_dec camelX osX _ _ _ row_package _ _ _ _ (V rowS (or_introl eq_refl))). exists 5%nat. vm_compute. reflexivity.
  - apply (parses_dec camelX osX _ _ _ row_package _ _ _ _ (V row3S (or_intror (or_introl eq_refl)))). exists 5%nat. vm_compute. reflexivity.
Qed.
