(** The decoder stops: with enough fuel its outcome no longer depends on the
    fuel, for declarations in which recursion and repetition consume input. *)
From Coq Require Import ZArith String List Bool Lia ZifyBool ZifyNat.
From Verif Require Import Base Ast IntervalsModel InspectModel InspectSpec BranchProofs GoLang GenModel GenDecode GenCheck
  GenSim GenSimBody GenSimProg WireSpec WireProofs WireComplete.
Import ListNotations.
Open Scope string_scope.
Open Scope list_scope.
Open Scope Z_scope.
Ltac Zify.zify_post_hook ::= Z.div_mod_to_equations.

Definition stable {A} (f : nat -> outcome A) : Prop :=
  exists N R, R <> OutOfFuel /\ forall n, (N <= n)%nat -> f n = R.
Definition stable2 {A} (f : nat -> nat -> outcome A) : Prop :=
  exists N R, R <> OutOfFuel /\ forall n m, (N <= n)%nat -> (N <= m)%nat -> f n m = R.

Lemma stable_const : forall {A} (o : outcome A), o <> OutOfFuel -> stable (fun _ => o).
Proof. intros A o H. exists 0%nat, o. auto. Qed.
Lemma stable_bind : forall {A B} (f : nat -> outcome A) (g : nat -> A -> outcome B), stable f ->
  (forall a, (exists N, forall n, (N <= n)%nat -> f n = Ok a) -> stable (fun n => g n a)) ->
  stable (fun n => bind (f n) (g n)).
Proof.
  intros A B f g (N & R & NR & H) G. destruct R as [a|e|m|].
  - destruct (G a) as (N' & R' & NR' & H'); [eauto|]. exists (N + N')%nat, R'. split; auto.
    intros n L. rewrite H by lia. cbn [bind]. apply H'. lia.
  - exists N, (Err e). split; [discriminate|]. intros n L. now rewrite H.
  - exists N, (Panic m). split; [discriminate|]. intros n L. now rewrite H.
  - congruence.
Qed.
Lemma stable2_bind : forall {A B} (f : nat -> nat -> outcome A) (g : nat -> nat -> A -> outcome B), stable2 f ->
  (forall a, (exists N, forall n m, (N <= n)%nat -> (N <= m)%nat -> f n m = Ok a) -> stable2 (fun n m => g n m a)) ->
  stable2 (fun n m => bind (f n m) (g n m)).
Proof.
  intros A B f g (N & R & NR & H) G. destruct R as [a|e|m|].
  - destruct (G a) as (N' & R' & NR' & H'); [eauto|]. exists (N + N')%nat, R'. split; auto.
    intros n m L L'. rewrite H by lia. cbn [bind]. apply H'; lia.
  - exists N, (Err e). split; [discriminate|]. intros n m L L'. now rewrite H.
  - exists N, (Panic m). split; [discriminate|]. intros n m' L L'. now rewrite H.
  - congruence.
Qed.
Lemma stable_ext : forall {A} (f g : nat -> outcome A), (forall n, f n = g n) -> stable f -> stable g.
Proof. intros A f g E (N & R & NR & H). exists N, R. split; auto. intros n L. rewrite <- E. auto. Qed.
Lemma stable_diag : forall {A} (f : nat -> nat -> outcome A), stable2 f -> stable (fun n => f n n).
Proof. intros A f (N & R & NR & H). exists N, R. auto. Qed.
Lemma stable2_fst : forall {A} (f : nat -> outcome A), stable f -> stable2 (fun n _ => f n).
Proof. intros A f (N & R & NR & H). exists N, R. auto. Qed.
Lemma stable2_const : forall {A} (o : outcome A), o <> OutOfFuel -> stable2 (fun _ _ => o).
Proof. intros A o H. exists 0%nat, o. auto. Qed.
(** One more step of the second argument. *)
Lemma stable2_step : forall {A} (f g : nat -> nat -> outcome A), (forall n m, f n (S m) = g n m) -> stable2 g -> stable2 f.
Proof.
  intros A f g E (N & R & NR & H). exists (S N), R. split; auto. intros n [|m] L L'; [lia|]. rewrite E. apply H; lia.
Qed.

Section Fix.
Variable camel : string -> string.
Variable r : resolver.
Notation cv := (Constant r).
Notation sv := (Struct r).

Definition arrayBase (t : type) : type := match t with TFixed b _ | TVar b _ => b | _ => t end.
(** Repetition without a count: the elements consume input. *)
Definition loopT (t : type) : Prop :=
  match t with TVar b None | TVar b (Some (LLeftover _)) => eats cv sv b | _ => True end.
Definition loopsOK (fl : list (string * type)) : Prop := forall nm t, In (nm, t) fl -> loopT t.

(** The case that is decoded does not depend on the fuel. *)
Definition choice (x : Z) (all cs : list ucase) : option (list member) :=
  match pickCase r x cs with Some ms => Some ms | None => defaultCase all end.
Lemma decPick_choice : forall dcall n cenv dat all x cs fs c, decPick camel r dcall n cenv dat all x cs fs c =
  match choice x all cs with Some ms => decMembers camel r dcall n cenv (blen dat) ms fs c | None => Ok (fs, c) end.
Proof.
  intros dcall n cenv dat all x cs fs c. unfold choice. induction cs as [|[[l|] ms] cs IH]; cbn [decPick pickCase].
  - induction all as [|[[l|] ms] all IH]; cbn [decDflt defaultCase]; auto.
  - destruct (inList r x l); auto.
  - auto.
Qed.
Lemma choice_in : forall x cs ms, choice x cs cs = Some ms -> exists l, In (UCase l ms) cs.
Proof.
  intros x cs ms H. unfold choice in H.
  assert (A : forall cs0, pickCase r x cs0 = Some ms -> exists l, In (UCase l ms) cs0).
  { induction cs0 as [|[[l|] ms'] cs0 IH]; cbn; intros E; [discriminate| |].
    - destruct (inList r x l); [injection E as ->; eauto|]. destruct (IH E) as [l' I]. eauto.
    - destruct (IH E) as [l' I]. eauto. }
  destruct (pickCase r x cs) as [ms'|] eqn:E; [injection H as ->; auto|].
  clear - H. induction cs as [|[[l|] ms'] cs IH]; cbn in *; [discriminate| |].
  - destruct (IH H) as [l' I]. eauto.
  - injection H as ->. eauto.
Qed.

Section Rank.
Variable rank : string -> nat.
Definition guardT (k : nat) (t : type) : Prop :=
  match arrayBase t with TStruct nm => (rank nm < k)%nat | _ => True end.
(** Structs that can be entered before the members consume anything have a
    smaller rank. *)
Inductive guarded (k : nat) : list member -> Prop :=
| G_nil : guarded k []
| G_field : forall nm t ms, guardT k t -> eats cv sv t \/ guarded k ms -> guarded k (MField nm t :: ms)
| G_union : forall u tag len cs ms, (forall c, In c cs -> guarded k (ucase_members c)) ->
    eatsM cv sv (MUnion u tag len cs) \/ guarded k ms -> guarded k (MUnion u tag len cs :: ms)
| G_eos : forall ms, guarded k ms -> guarded k (MEOS :: ms)
| G_ignore : forall ms, guarded k ms -> guarded k (MIgnore :: ms)
| G_fail : forall ms, guarded k (MFail :: ms).

Hypothesis Hstr : forall nm s, Struct r nm = Some s -> Extern s = false ->
  checkStruct camel r s = true /\ forallb ptrM (members_of s) = true /\ loopsOK (flat_map allFields (members_of s)) /\
  guarded (rank nm) (members_of s).

Section Body.
Variable cenv : amap value.
Variable dat : bytes.
Notation d := (blen dat).
Hypothesis Hd : blen dat < two63.
Hypothesis Hwc : wordc cenv.
Variable L : Z.
Variable k : nat.
Hypothesis Hcall : forall nm s c, Struct r nm = Some s -> Extern s = false -> all_bytes c -> blen c < two63 ->
  blen c < L \/ blen c <= L /\ (rank nm < k)%nat -> stable (fun n => decCall camel r n nm cenv c).

Lemma Hstr' : forall nm s, Struct r nm = Some s -> Extern s = false ->
  checkStruct camel r s = true /\ forallb ptrM (members_of s) = true /\
  (True \/ forallb totalM (members_of s) = true).
Proof. intros nm s H E. destruct (Hstr nm s H E) as (A & B & _). auto. Qed.

Lemma Hsound : forall n nm s pos fs c v c', Struct r nm = Some s -> Extern s = false ->
  all_bytes c -> blen c < two63 -> decCall camel r n nm cenv c = Ok (v, c') ->
  exists w, c = w ++ c' /\ enc camel cv sv True cenv pos fs (TStruct nm) v w c'.
Proof. intros. eapply call_sound; eauto. apply Hstr'. Qed.

Lemma base_step : forall n ctxs b pos (fs : amap value) c v c', checkBase r ctxs b = true -> okpos dat (noPtrT b) pos c ->
  decBase r (decCall camel r n) cenv d b c = Ok (v, c') ->
  exists w, c = w ++ c' /\ (eats cv sv b -> 1 <= blen w) /\ okpos dat (noPtrT b) (pos + blen w) c'.
Proof.
  intros n ctxs b pos fs c v c' C P H.
  destruct (base_sound camel r True (decCall camel r n) cenv dat Hd (Hsound n) b ctxs pos fs c v c' C P H) as (w & -> & E).
  exists w. split; auto. split; [intros EA; eapply (proj1 (eats_enc camel r True) b EA); eauto|]. now apply okpos_next.
Qed.

Definition goes (t : type) (c : bytes) : Prop := blen c < L \/ blen c <= L /\ guardT k t.

Lemma base_stable : forall ctxs b c pos, checkBase r ctxs b = true -> okpos dat (noPtrT b) pos c -> goes b c ->
  stable (fun n => decBase r (decCall camel r n) cenv d b c).
Proof.
  intros ctxs [sz cst| | | |nm|b i|b o] c pos C (A & LE & P) G; try discriminate; cbn [decBase].
  - apply stable_const. unfold decInt. destruct (_ <? _); [discriminate|]. destruct (match cst with None => true | Some l => _ end); discriminate.
  - apply stable_const. unfold decInt. destruct (_ <? _); discriminate.
  - apply stable_const. discriminate.
  - apply stable_const. unfold decNul. destruct (_ <? _); [discriminate|]. destruct (_ || _); discriminate.
  - cbn [checkBase] in C. destruct (Struct r nm) as [s|] eqn:HS; [|discriminate]. apply andb_true_iff in C as [C _].
    eapply Hcall; eauto; [now apply negb_true_iff|lia].
Qed.

Lemma goes_next : forall t w c, goes t (w ++ c) -> goes t c.
Proof. intros t w c. unfold goes. rewrite blen_app. pose proof (blen_nonneg w). intros [G|[G1 G2]]; [left; lia|right; split; auto; lia]. Qed.

Lemma for_stable : forall ctxs b, checkBase r ctxs b = true -> forall j z c pos, Z.to_nat z = j -> okpos dat (noPtrT b) pos c -> goes b c ->
  stable2 (fun n m => decFor r (decCall camel r n) cenv d m b z c).
Proof.
  intros ctxs b C. induction j as [|j IH]; intros z c pos Z P G.
  - exists 0%nat, (Ok ([], c)). split; [discriminate|]. intros n m _ _. destruct m; cbn [decFor]; destruct (Z.leb_spec z 0); auto; lia.
  - apply stable2_step with (g := fun n m => ('(v, c1) <- decBase r (decCall camel r n) cenv d b c ;;
           '(vs, c2) <- decFor r (decCall camel r n) cenv d m b (z - 1) c1 ;; Ok (v :: vs, c2))).
    { intros n m. cbn [decFor]. destruct (Z.leb_spec z 0); [lia|reflexivity]. }
    apply stable2_bind; [apply stable2_fst; eapply base_stable; eauto|].
    intros [v c1] (N & HN). specialize (HN N N (le_n _) (le_n _)).
    destruct (base_step _ _ _ _ [] _ _ _ C P HN) as (w & -> & _ & P1).
    apply stable2_bind.
    + apply (IH (z - 1) c1 (pos + blen w)); auto; [lia|now apply goes_next in G].
    + intros [vs c2] _. apply stable2_const. discriminate.
Qed.

Lemma while_stable : forall ctxs b, checkBase r ctxs b = true -> eats cv sv b -> forall j c pos, List.length c = j -> okpos dat (noPtrT b) pos c -> goes b c ->
  stable2 (fun n m => decWhile r (decCall camel r n) cenv d m b c).
Proof.
  intros ctxs b C EA. induction j as [j IH] using lt_wf_ind. intros c pos LC P G.
  destruct (Z.leb_spec (blen c) 0) as [Z|Z].
  - exists 0%nat, (Ok ([], c)). split; [discriminate|]. intros n m _ _. destruct m; cbn [decWhile]; destruct (Z.leb_spec (blen c) 0); auto; lia.
  - apply stable2_step with (g := fun n m => ('(v, c1) <- decBase r (decCall camel r n) cenv d b c ;;
           '(vs, c2) <- decWhile r (decCall camel r n) cenv d m b c1 ;; Ok (v :: vs, c2))).
    { intros n m. cbn [decWhile]. destruct (Z.leb_spec (blen c) 0); [lia|reflexivity]. }
    apply stable2_bind; [apply stable2_fst; eapply base_stable; eauto|].
    intros [v c1] (N & HN). specialize (HN N N (le_n _) (le_n _)).
    destruct (base_step _ _ _ _ [] _ _ _ C P HN) as (w & -> & EW & P1). specialize (EW EA).
    apply stable2_bind.
    + apply (IH (List.length c1)) with (pos := pos + blen w); auto; [|now apply goes_next in G].
      rewrite app_length in LC. unfold blen in EW. lia.
    + intros [vs c2] _. apply stable2_const. discriminate.
Qed.

Lemma integerOf_nofuel : forall i, integerOf r i <> OutOfFuel.
Proof. intros [n|z]; unfold integerOf, Integer; [destruct (Constant r n)|]; discriminate. Qed.
Lemma refVal_nofuel : forall fs f, refVal camel fs cenv f <> OutOfFuel.
Proof. intros fs f. destruct (ref_cases camel cenv fs f) as [[x ->]| ->]; discriminate. Qed.
Lemma tipe_nofuel : forall t, tipe camel r t <> OutOfFuel.
Proof.
  induction t as [| | | | |b IH i|b IH o]; cbn [tipe]; try discriminate.
  - pose proof (integerOf_nofuel i). destruct (integerOf r i); try (cbn; congruence). cbn [bind]. destruct (tipe camel r b); cbn; congruence.
  - destruct (tipe camel r b); cbn; congruence.
Qed.

Lemma within_stable : forall {A} z c (body : nat -> bytes -> outcome (A * bytes)),
  (forall j, stable (fun n => body n (firstn j c))) -> stable (fun n => decWithin z c (body n)).
Proof.
  intros A z c body H. unfold decWithin. destruct (blen c <? z); [apply stable_const; discriminate|].
  destruct (z <? 0); [apply stable_const; discriminate|].
  apply (stable_bind (fun n => body n (firstn (Z.to_nat z) c))); [apply H|]. intros [a c1] _. apply stable_const.
  destruct (0 <? blen c1); discriminate.
Qed.
Lemma leaving_stable : forall {A} z c (body : nat -> bytes -> outcome (A * bytes)),
  (forall j, stable (fun n => body n (firstn j c))) -> stable (fun n => decLeaving z c (body n)).
Proof.
  intros A z c body H. unfold decLeaving. destruct (z <? 0); [apply stable_const; discriminate|].
  destruct (blen c <? z); [apply stable_const; discriminate|]. now apply within_stable.
Qed.

Lemma goes_firstn : forall t j c, goes t c -> goes t (firstn j c).
Proof.
  intros t j c. unfold goes. assert (blen (firstn j c) <= blen c) by (unfold blen; rewrite firstn_length; lia).
  intros [G|[G1 G2]]; [left; lia|right; split; auto; lia].
Qed.
Lemma goes_base : forall ctxs t b c, checkBase r ctxs b = true -> arrayBase t = b -> goes t c -> goes b c.
Proof.
  intros ctxs t b c C E [G|[G1 G2]]; [left; auto|]. right. split; auto. unfold guardT in *. rewrite E in G2.
  destruct b; try discriminate; auto.
Qed.

Lemma type_stable : forall ctxs kn t fs c pos nm, checkType r ctxs kn t = true -> loopT t -> atpos dat (MField nm t) pos c -> goes t c ->
  stable (fun n => decType camel r (decCall camel r n) n cenv d fs t c).
Proof.
  intros ctxs kn t fs c pos nm C LP P G.
  assert (P' : okpos dat (noPtrT t) pos c).
  { destruct P as [[P (A & LE & _)]|[_ (A & LE & [P|P])]]; [|discriminate|]; (split; [auto|]; split; [auto|]); auto. }
  destruct t as [sz cst| | | |nm'|b i|b [[f|i]|]].
  1,2,3,4,5: apply base_stable with (ctxs := ctxs) (pos := pos); auto.
  - cbn [checkType noPtrT] in *. apply andb_true_iff in C as [C _]. cbn [decType].
    apply (stable_bind (fun _ => integerOf r i)); [apply stable_const, integerOf_nofuel|]. intros z _.
    apply (stable_bind (fun n => decFor r (decCall camel r n) cenv d n b z c)).
    + apply stable_diag with (f := fun n m => decFor r (decCall camel r n) cenv d m b z c).
      eapply for_stable; eauto. eapply goes_base; eauto. reflexivity.
    + intros [vs c1] _. apply stable_const. discriminate.
  - cbn [checkType noPtrT] in *. apply andb_true_iff in C as [C _]. cbn [decType].
    apply (stable_bind (fun _ => refVal camel fs cenv f)); [apply stable_const, refVal_nofuel|]. intros z _.
    apply (stable_bind (fun _ => tipe camel r b)); [apply stable_const, tipe_nofuel|]. intros g _.
    destruct (_ || _); [apply stable_const; discriminate|].
    apply (stable_bind (fun n => decFor r (decCall camel r n) cenv d n b (s64 z) c)).
    + apply stable_diag with (f := fun n m => decFor r (decCall camel r n) cenv d m b (s64 z) c).
      eapply for_stable; eauto. eapply goes_base; eauto. reflexivity.
    + intros [vs c1] _. apply stable_const. discriminate.
  - cbn [checkType noPtrT] in *. apply andb_true_iff in C as [C _]. cbn [decType].
    apply (stable_bind (fun _ => integerOf r i)); [apply stable_const, integerOf_nofuel|]. intros z _.
    apply (leaving_stable z c (fun n c0 => '(vs, c1) <- decWhile r (decCall camel r n) cenv d n b c0 ;; Ok (VList vs, c1))).
    intros j. apply (stable_bind (fun n => decWhile r (decCall camel r n) cenv d n b (firstn j c))).
    + apply stable_diag with (f := fun n m => decWhile r (decCall camel r n) cenv d m b (firstn j c)).
      assert (NB : noPtrT b = true) by (destruct P as [[P _]|[P _]]; auto).
      eapply while_stable with (pos := pos); eauto.
      * rewrite NB in *. now apply okpos_tail.
      * apply goes_firstn. eapply goes_base; eauto. reflexivity.
    + intros [vs c1] _. apply stable_const. discriminate.
  - cbn [checkType noPtrT] in *. cbn [decType].
    apply (stable_bind (fun n => decWhile r (decCall camel r n) cenv d n b c)).
    + apply stable_diag with (f := fun n m => decWhile r (decCall camel r n) cenv d m b c).
      eapply while_stable with (pos := pos); eauto. eapply goes_base; eauto. reflexivity.
    + intros [vs c1] _. apply stable_const. discriminate.
Qed.

Definition goesMs (ms : list member) (c : bytes) : Prop := blen c < L \/ blen c <= L /\ guarded k ms.

Definition mstable (m : member) : Prop := forall ctxs kn fs c pos ms, wordf fs -> checkMember r ctxs kn m = true ->
  loopsOK (allFields m) -> atpos dat m pos c -> goesMs (m :: ms) c ->
  stable (fun n => decMember camel r (decCall camel r n) n cenv d m fs c).

(** What a member leaves. *)
Lemma member_step : forall n m ctxs kn pos fs c fs' c', wordf fs -> checkMember r ctxs kn m = true -> atpos dat m pos c ->
  decMember camel r (decCall camel r n) n cenv d m fs c = Ok (fs', c') ->
  wordf fs' /\ exists w, c = w ++ c' /\ (eatsM cv sv m -> 1 <= blen w).
Proof.
  intros n m ctxs kn pos fs c fs' c' W C P H.
  destruct (member_sound camel r True (decCall camel r n) n cenv dat Hd (Hsound n)
    ltac:(intros; apply call_noint) Hwc m ctxs kn pos fs c fs' c' W C (or_introl I) P H) as (W' & w & -> & E).
  split; auto. exists w. split; auto. intros EA. eapply (proj1 (proj2 (eats_enc camel r True)) m EA); eauto.
Qed.

Lemma members_stable : forall ms, Forall mstable ms -> forall ctxs kn fs c pos, wordf fs -> checkMembers r ctxs kn ms = true ->
  loopsOK (flat_map allFields ms) -> allpos dat ms pos c -> goesMs ms c ->
  stable (fun n => decMembers camel r (decCall camel r n) n cenv d ms fs c).
Proof.
  induction ms as [|m ms IH]; intros F ctxs kn fs c pos W C LP P G.
  - cbn [decMembers]. apply stable_const. discriminate.
  - cbn [checkMembers] in C. apply andb_true_iff in C as [C1 C2]. cbn [decMembers].
    assert (P1 : atpos dat m pos c).
    { unfold atpos, allpos in *. cbn [forallb] in P. rewrite !andb_true_iff in P. tauto. }
    apply (stable_bind (fun n => decMember camel r (decCall camel r n) n cenv d m fs c)).
    + eapply (Forall_inv F); eauto. intros nm t It. apply (LP nm). cbn. apply in_or_app. auto.
    + intros [fs1 c1] (N & HN). specialize (HN N (le_n _)).
      destruct (member_step N m ctxs kn pos fs c fs1 c1 W C1 P1 HN) as (W1 & w & -> & EA).
      eapply (IH (Forall_inv_tail F) ctxs (addKnown kn m) fs1 c1 (pos + blen w)); eauto.
      * intros nm t It. apply (LP nm). cbn. apply in_or_app. auto.
      * unfold allpos in *. cbn [forallb] in P. rewrite !andb_true_iff in P.
        destruct P as [[[PA PB] PC]|[[PA PB] PC]]; apply okpos_next in PC; auto.
      * unfold goesMs in *. rewrite blen_app in G. pose proof (blen_nonneg w). destruct G as [G|[G1 G2]]; [left; lia|].
        assert (HE : eatsM cv sv m \/ guarded k ms).
        { inversion G2; subst; auto. destruct H3; auto. left. constructor. auto. left. constructor. }
        destruct HE as [HE|HE]; [specialize (EA HE); left; lia|right; split; auto; lia].
Qed.

Lemma member_stable : forall m, mstable m.
Proof.
  induction m as [nm t|u tag len cs IH| | |] using member_ind'; intros ctxs kn fs c pos ms W C LP P G.
  - cbn [decMember]. apply (stable_bind (fun n => decType camel r (decCall camel r n) n cenv d fs t c)).
    + eapply type_stable; eauto.
      * apply (LP nm). cbn. auto.
      * destruct G as [G|[G1 G2]]; [left; auto|right; split; auto]. now inversion G2.
    + intros [v c1] _. apply stable_const. discriminate.
  - assert (PI : forall j c0, (len = None -> c0 = c) -> c0 = firstn j c ->
       stable (fun n => x <- refVal camel fs cenv tag ;; decPick camel r (decCall camel r n) n cenv dat cs x cs fs c0)).
    { intros j c0 L0 E0. apply (stable_bind (fun _ => refVal camel fs cenv tag)); [apply stable_const, refVal_nofuel|]. intros x _.
      assert (X : (exists cse, In cse cs /\ forall n, decPick camel r (decCall camel r n) n cenv dat cs x cs fs c0 =
                     decMembers camel r (decCall camel r n) n cenv d (ucase_members cse) fs c0) \/
                  forall n, decPick camel r (decCall camel r n) n cenv dat cs x cs fs c0 = Ok (fs, c0)).
      { destruct (choice x cs cs) as [ms'|] eqn:EC.
        - destruct (choice_in _ _ _ EC) as [l I]. left. exists (UCase l ms'). split; auto. intros n. now rewrite decPick_choice, EC.
        - right. intros n. now rewrite decPick_choice, EC. }
      destruct X as [(cse & I & E)|E].
      - apply stable_ext with (f := fun n => decMembers camel r (decCall camel r n) n cenv d (ucase_members cse) fs c0); [auto|].
        rewrite Forall_forall in IH.
        eapply (members_stable (ucase_members cse) (IH _ I) ctxs kn fs c0 pos); eauto.
        + apply (proj2 (proj2 (check_union r _ _ _ _ _ _ C)) _ I).
        + intros nm t It. apply (LP nm). cbn [allFields]. apply in_flat_map. exists cse. destruct cse. auto.
        + unfold allpos. destruct cse as [l ms']. cbn [ucase_members]. destruct P as [[P1 P2]|[P1 P2]].
          * left. split; [|subst c0; now apply okpos_tail]. cbn [noPtrM] in P1. rewrite forallb_forall in P1. apply (P1 _ I).
          * cbn [ptrM] in P1. destruct len as [lc|].
            -- left. split.
               ++ assert (P1' : forallb (fun c => match c with UCase _ ms => forallb noPtrM ms end) cs = true) by (destruct lc; exact P1).
                  rewrite forallb_forall in P1'. apply (P1' _ I).
               ++ subst c0. apply okpos_tail. destruct P2 as (A & LE & _). split; auto.
            -- right. rewrite L0 by auto. split; auto. rewrite forallb_forall in P1. apply (P1 _ I).
        + unfold goesMs in *. assert (blen c0 <= blen c) by (subst c0; unfold blen; rewrite firstn_length; lia).
          destruct G as [G|[G1 G2]]; [left; lia|right; split; [lia|]]. inversion G2; subst; auto.
      - apply stable_ext with (f := fun _ => Ok (fs, c0)); [auto|]. apply stable_const. discriminate. }
    eapply stable_ext; [intros n; symmetry; apply decMember_union|]. cbn zeta. destruct len as [[f|i]|]; cbn [decConstr].
    + apply (stable_bind (fun _ => refVal camel fs cenv f)); [apply stable_const, refVal_nofuel|]. intros z _.
      apply (within_stable (s64 z) c (fun n c0 => x <- refVal camel fs cenv tag ;; decPick camel r (decCall camel r n) n cenv dat cs x cs fs c0)).
      intros j. eapply PI; [discriminate|reflexivity].
    + apply (stable_bind (fun _ => integerOf r i)); [apply stable_const, integerOf_nofuel|]. intros z _.
      apply (leaving_stable z c (fun n c0 => x <- refVal camel fs cenv tag ;; decPick camel r (decCall camel r n) n cenv dat cs x cs fs c0)).
      intros j. eapply PI; [discriminate|reflexivity].
    + apply (PI (List.length c)); auto. now rewrite firstn_all.
  - cbn [decMember]. apply stable_const. destruct (_ <? _); discriminate.
  - cbn [decMember]. apply stable_const. discriminate.
  - cbn [decMember]. apply stable_const. discriminate.
Qed.
End Body.

Lemma stable_S : forall {A} (f : nat -> outcome A), stable (fun n => f (S n)) -> stable f.
Proof. intros A f (N & R & NR & H). exists (S N), R. split; auto. intros [|n] L; [lia|]. apply H. lia. Qed.

Lemma struct_stable0 : forall s cenv c fs, checkStruct camel r s = true -> forallb ptrM (members_of s) = true ->
  loopsOK (flat_map allFields (members_of s)) -> wordc cenv -> wordf fs -> all_bytes c -> blen c < two63 ->
  (exists k L, goesMs L k (members_of s) c /\
    forall nm s cenv c, Struct r nm = Some s -> Extern s = false -> wordc cenv -> all_bytes c -> blen c < two63 ->
      blen c < L \/ blen c <= L /\ (rank nm < k)%nat -> stable (fun n => decCall camel r n nm cenv c)) ->
  stable (fun n => decMembers camel r (decCall camel r n) n cenv (blen c) (members_of s) fs c).
Proof.
  intros s cenv c fs CS PT LP WC WF A LE (k & L & G & HC).
  eapply (members_stable cenv c LE WC L k) with (pos := 0) (ctxs := scontexts s) (kn := @nil (string * Z)); auto.
  - apply Forall_forall. intros m _. apply member_stable; auto. intros. eapply HC; eauto.
  - now apply checked_members with (camel := camel).
  - right. split; auto. split; auto. split; [lia|]. right. lia.
Qed.

Lemma call_stable0 : forall j k nm s cenv c, List.length c = j -> rank nm = k -> Struct r nm = Some s -> Extern s = false ->
  wordc cenv -> all_bytes c -> blen c < two63 -> stable (fun n => decCall camel r n nm cenv c).
Proof.
  induction j as [j IHj] using lt_wf_ind. induction k as [k IHk] using lt_wf_ind.
  intros nm s cenv c Lj Rk HS HE WC A LE. destruct (Hstr _ _ HS HE) as (CS & PT & LP & GD).
  apply stable_S. cbn [decCall]. rewrite HS.
  destruct (structDecl_ok camel r s CS) as [ds Hds]. rewrite Hds. cbn [bind].
  destruct (ctxArgs_cases cenv (scontexts s)) as [[args Ha]| Ha]; rewrite Ha; [cbn [bind]|unfold stuck; cbn [bind]; apply stable_const; discriminate].
  apply (stable_bind (fun n => decMembers camel r (decCall camel r n) n (combine (scontexts s) args) (blen c) (members_of s) (zeros ds) c)).
  - apply struct_stable0; auto.
    + eapply ctxs_word; eauto.
    + rewrite (zeros_blank camel r s ds Hds). apply blank_word.
    + exists k, (blen c). split.
      * right. split; [lia|]. now rewrite <- Rk.
      * intros nm' s' cenv' c' HS' HE' WC' A' LE' [B|[B R']].
        -- eapply IHj; [|reflexivity|reflexivity|..]; eauto. unfold blen in B. lia.
        -- destruct (Nat.eq_dec (List.length c') j) as [E|E].
           ++ eapply (IHk (rank nm')); eauto.
           ++ eapply IHj; [|reflexivity|reflexivity|..]; eauto. unfold blen in B. lia.
  - intros [fs1 c1] _. apply stable_const. discriminate.
Qed.

Theorem struct_stable : forall s cenv c fs, checkStruct camel r s = true -> forallb ptrM (members_of s) = true ->
  loopsOK (flat_map allFields (members_of s)) -> wordc cenv -> wordf fs -> all_bytes c -> blen c < two63 ->
  stable (fun n => decStruct camel r n s fs cenv c).
Proof.
  intros s cenv c fs CS PT LP WC WF A LE. apply stable_S. cbn [decStruct]. apply struct_stable0; auto.
  exists 0%nat, (blen c + 1). split; [left; lia|]. intros. eapply call_stable0; eauto.
Qed.
End Rank.
End Fix.
