(** What a struct's parser does depends on nested structs only through what their parsers do. *)
From Coq Require Import ZArith String List Bool Lia ZifyBool ZifyNat.
From Verif Require Import Base Ast IntervalsModel InspectModel InspectSpec InspectProofs GoLang GenModel GenDecode GenCheck GenSim GenSimBody GenSimProg GenMono WireSpec WireProofs WireComplete WireFacts GenTerm FwdProofs
  GroupSpec GroupProofs PackageSpec PackageProofs PackageFacts PackageMore.
Import ListNotations.
Open Scope string_scope.
Open Scope list_scope.
Open Scope Z_scope.

(** An outcome that is one for good beyond some bounds. *)
Definition Ev (P : nat -> nat -> Prop) : Prop := exists k0, forall k n, (k0 <= k)%nat -> (k0 <= n)%nat -> P k n.
Definition follows {A} (o : outcome A) (o' : nat -> nat -> outcome A) : Prop := o = OutOfFuel \/ Ev (fun k n => o' k n = o).
Lemma follows_refl : forall A (o : outcome A), follows o (fun _ _ => o).
Proof. intros A o. right. exists O. auto. Qed.
Lemma follows_ext : forall A (o : outcome A) f g, Ev (fun k n => g k n = f k n) -> follows o f -> follows o g.
Proof.
  intros A o f g [k1 E] [F|[k2 F]]; [now left|]. right. exists (max k1 k2). intros k n K N. rewrite E by lia. apply F; lia.
Qed.
Lemma follows_bind : forall A B (o : outcome A) o' (f : A -> outcome B) f', follows o o' -> (forall a, o = Ok a -> follows (f a) (fun k n => f' k n a)) -> follows (bind o f) (fun k n => bind (o' k n) (f' k n)).
Proof.
  intros A B o o' f f' [->|[k1 F]] H; [now left|]. destruct o as [a|e|m|]; cbn [bind]; try (right; exists k1; intros k n K N; rewrite F by lia; reflexivity).
  destruct (H a eq_refl) as [->|[k2 G]]; [now left|]. right. exists (max k1 k2). intros k n K N. rewrite F by lia. apply G; lia.
Qed.
Lemma follows_pred : forall A (o : outcome A) f, follows o f -> follows o (fun k n => f k (pred n)).
Proof. intros A o f [->|[k0 F]]; [now left|]. right. exists (S k0). intros k n K N. apply F; lia. Qed.

Section Mod.
Variable camel : string -> string.
Variables r r' : resolver.
Hypothesis CN : forall x, Constant r x = Constant r' x.
Hypothesis CK : forall nm s, Struct r nm = Some s -> Extern s = false -> checkStruct camel r s = true.
Hypothesis CK' : forall nm s, Struct r' nm = Some s -> Extern s = false -> checkStruct camel r' s = true.
(** Structs are the same, or their parsers do the same. *)
Definition covered (t t' : struct) : Prop := Extern t' = false /\ scontexts t' = scontexts t /\ forall args c n, ctxValues camel r t args -> goBytes c ->
  follows (decStruct camel r n t (blank camel (Constant r) t) (contextsOf t args) c) (fun k _ => decStruct camel r' k t' (blank camel (Constant r') t') (contextsOf t' args) c).
Hypothesis ST : forall nm t, Struct r nm = Some t -> Extern t = false -> Struct r' nm = Some t \/ exists t', Struct r' nm = Some t' /\ covered t t'.
Definition envOK (cenv : amap value) (ctxs : list string) : Prop := forall x, In x ctxs -> exists v c, alookup x cenv = Some v /\ Context r x = Some c /\ ctxValue camel c v.

Lemma mod_value : forall i, int_value (Constant r) i = int_value (Constant r') i.
Proof. intros [x|z]; cbn; auto. Qed.
Lemma mod_integer : forall i, integerOf r i = integerOf r' i.
Proof. intros [x|z]; unfold integerOf, Integer; auto. now rewrite CN. Qed.
Lemma mod_inList : forall x l, inList r x l = inList r' x l.
Proof.
  intros x l. unfold inList. induction l as [|g l IH]; cbn [existsb]; auto. rewrite IH. f_equal. unfold inRange, range_bounds. rewrite !mod_value. destruct (rhigh g); [now rewrite mod_value|auto].
Qed.
Lemma mod_tipe : forall b, tipe camel r b = tipe camel r' b.
Proof. induction b; cbn [tipe]; auto; rewrite IHb; auto. now rewrite mod_integer. Qed.
Lemma mod_blankOf : forall b, blankOf (Constant r) b = blankOf (Constant r') b.
Proof. induction b; cbn [blankOf]; auto. now rewrite IHb, mod_value. Qed.
Lemma mod_blank : forall s, blank camel (Constant r) s = blank camel (Constant r') s.
Proof. intros s. unfold blank. apply map_ext. intros f. now rewrite mod_blankOf. Qed.
Lemma good_suffix : forall c c1, goBytes c -> FwdProofs.suffix c c1 -> goBytes c1.
Proof.
  intros c c1 [A L] (w & E). rewrite E in A, L. unfold goBytes, all_bytes, blen in *. rewrite app_length in L. apply Forall_app in A as [_ A]. split; [exact A|lia].
Qed.
Lemma good_firstn : forall c k, goBytes c -> goBytes (firstn k c).
Proof.
  intros c k [A L]. rewrite <- (firstn_skipn k c) in A, L. unfold goBytes, all_bytes, blen in *. rewrite app_length in L. apply Forall_app in A as [A _]. split; [exact A|lia].
Qed.

Section Body.
Variable m : nat.
Hypothesis HC : forall nm s cenv c, Struct r nm = Some s -> Extern s = false -> envOK cenv (scontexts s) -> goBytes c ->
  follows (decCall camel r m nm cenv c) (fun k _ => decCall camel r' k nm cenv c).
Variable n : nat.
Variable cenv : amap value.
Variable ctxs : list string.
Hypothesis EO : envOK cenv ctxs.
Variable dat : bytes.
Notation dcall := (decCall camel r m).
Notation dcall' k := (decCall camel r' k).
Notation d := (blen dat).
Lemma mod_base : forall b c, checkBase r ctxs b = true -> goBytes c -> follows (decBase r dcall cenv d b c) (fun k _ => decBase r' (dcall' k) cenv d b c).
Proof.
  intros b c C G. destruct b as [sz l| | | |nm| |]; cbn [decBase]; try apply follows_refl.
  - eapply follows_ext; [|apply follows_refl]. exists O. intros k q _ _. unfold decInt. destruct l; auto. now rewrite mod_inList.
  - cbn in C. destruct (Struct r nm) as [s|] eqn:E; [|discriminate]. apply andb_true_iff in C as [X C]. eapply HC; eauto.
    + now destruct (Extern s).
    + intros x I. apply EO. rewrite forallb_forall in C. specialize (C x I). unfold memb in C. apply existsb_exists in C as (z & Iz & Ez). apply String.eqb_eq in Ez. now subst z.
Qed.
Lemma mod_for : forall b, checkBase r ctxs b = true -> forall mm k c, goBytes c -> follows (decFor r dcall cenv d mm b k c) (fun kk nn => decFor r' (dcall' kk) cenv d nn b k c).
Proof.
  intros b C. induction mm as [|mm IH]; intros k c G; cbn [decFor]; destruct (k <=? 0) eqn:E; try (eapply follows_ext; [|apply follows_refl]; exists O; intros kk [|nn] _ _; cbn [decFor]; rewrite E; reflexivity); [now left|].
  eapply follows_ext with (f := fun kk nn => '(v, c1) <- decBase r' (dcall' kk) cenv d b c ;; '(vs, c2) <- decFor r' (dcall' kk) cenv d (pred nn) b (k - 1) c1 ;; Ok (v :: vs, c2)).
  - exists 1%nat. intros kk [|nn] _ L; [lia|]. cbn [decFor pred]. now rewrite E.
  - apply (follows_bind _ _ _ (fun kk _ => decBase r' (dcall' kk) cenv d b c)); [now apply mod_base|]. intros [v c1] H1.
    apply (follows_bind _ _ _ (fun kk nn => decFor r' (dcall' kk) cenv d (pred nn) b (k - 1) c1)).
    + apply (follows_pred _ _ (fun kk nn => decFor r' (dcall' kk) cenv d nn b (k - 1) c1)). apply IH. eapply good_suffix; eauto. eapply leaves_base; eauto. intros; apply leaves_call.
    + intros [vs c2] _. apply follows_refl.
Qed.
Lemma mod_while : forall b, checkBase r ctxs b = true -> forall mm c, goBytes c -> follows (decWhile r dcall cenv d mm b c) (fun kk nn => decWhile r' (dcall' kk) cenv d nn b c).
Proof.
  intros b C. induction mm as [|mm IH]; intros c G; cbn [decWhile]; destruct (blen c <=? 0) eqn:E; try (eapply follows_ext; [|apply follows_refl]; exists O; intros kk [|nn] _ _; cbn [decWhile]; rewrite E; reflexivity); [now left|].
  eapply follows_ext with (f := fun kk nn => '(v, c1) <- decBase r' (dcall' kk) cenv d b c ;; '(vs, c2) <- decWhile r' (dcall' kk) cenv d (pred nn) b c1 ;; Ok (v :: vs, c2)).
  - exists 1%nat. intros kk [|nn] _ L; [lia|]. cbn [decWhile pred]. now rewrite E.
  - apply (follows_bind _ _ _ (fun kk _ => decBase r' (dcall' kk) cenv d b c)); [now apply mod_base|]. intros [v c1] H1.
    apply (follows_bind _ _ _ (fun kk nn => decWhile r' (dcall' kk) cenv d (pred nn) b c1)).
    + apply (follows_pred _ _ (fun kk nn => decWhile r' (dcall' kk) cenv d nn b c1)). apply IH. eapply good_suffix; eauto. eapply leaves_base; eauto. intros; apply leaves_call.
    + intros [vs c2] _. apply follows_refl.
Qed.
Lemma mod_within : forall A k c (b : bytes -> outcome (A * bytes)) b', goBytes c -> (forall c, goBytes c -> follows (b c) (fun kk nn => b' kk nn c)) -> follows (decWithin k c b) (fun kk nn => decWithin k c (b' kk nn)).
Proof.
  intros A k c b b' G H. unfold decWithin. destruct (blen c <? k); [apply follows_refl|]. destruct (k <? 0); [apply follows_refl|].
  apply (follows_bind _ _ _ (fun kk nn => b' kk nn (firstn (Z.to_nat k) c))); [apply H; now apply good_firstn|]. intros [a c1] _. apply follows_refl.
Qed.
Lemma mod_leaving : forall A k c (b : bytes -> outcome (A * bytes)) b', goBytes c -> (forall c, goBytes c -> follows (b c) (fun kk nn => b' kk nn c)) -> follows (decLeaving k c b) (fun kk nn => decLeaving k c (b' kk nn)).
Proof.
  intros A k c b b' G H. unfold decLeaving. destruct (k <? 0); [apply follows_refl|]. destruct (blen c <? k); [apply follows_refl|]. now apply mod_within.
Qed.
Lemma mod_type : forall k b fs c, checkType r ctxs k b = true -> goBytes c -> follows (decType camel r dcall n cenv d fs b c) (fun kk nn => decType camel r' (dcall' kk) nn cenv d fs b c).
Proof.
  intros k b fs c C G. destruct b as [sz l| | | |nm|b i|b [[f|i]|]]; cbn [decType checkType] in *; try (now apply mod_base).
  - apply andb_true_iff in C as [C _]. rewrite mod_integer. destruct (integerOf r' i) as [j| | |]; cbn [bind]; try apply follows_refl.
    apply (follows_bind _ _ _ (fun kk nn => decFor r' (dcall' kk) cenv d nn b j c)); [now apply mod_for|]. intros [vs c1] _. apply follows_refl.
  - apply andb_true_iff in C as [C _]. destruct (refVal camel fs cenv f) as [x| | |]; cbn [bind]; try apply follows_refl. rewrite mod_tipe. destruct (tipe camel r' b) as [g| | |]; cbn [bind]; try apply follows_refl.
    destruct ((s64 x <? 0) || (maxAlloc <? s64 x * gsize g)); [apply follows_refl|].
    apply (follows_bind _ _ _ (fun kk nn => decFor r' (dcall' kk) cenv d nn b (s64 x) c)); [now apply mod_for|]. intros [vs c1] _. apply follows_refl.
  - apply andb_true_iff in C as [C _]. rewrite mod_integer. destruct (integerOf r' i) as [j| | |]; cbn [bind]; try apply follows_refl.
    apply (mod_leaving _ j c _ (fun kk nn c0 => '(vs, c1) <- decWhile r' (dcall' kk) cenv d nn b c0 ;; Ok (VList vs, c1))); auto. intros c0 G0.
    apply (follows_bind _ _ _ (fun kk nn => decWhile r' (dcall' kk) cenv d nn b c0)); [now apply mod_while|]. intros [vs c1] _. apply follows_refl.
  - apply (follows_bind _ _ _ (fun kk nn => decWhile r' (dcall' kk) cenv d nn b c)); [now apply mod_while|]. intros [vs c1] _. apply follows_refl.
Qed.
Definition moves (mb : member) : Prop := forall k fs c, checkMember r ctxs k mb = true -> goBytes c -> follows (decMember camel r dcall n cenv d mb fs c) (fun kk nn => decMember camel r' (dcall' kk) nn cenv d mb fs c).
Lemma mod_members0 : forall ms, Forall moves ms -> forall k fs c, checkMembers r ctxs k ms = true -> goBytes c -> follows (decMembers camel r dcall n cenv d ms fs c) (fun kk nn => decMembers camel r' (dcall' kk) nn cenv d ms fs c).
Proof.
  induction ms as [|mb ms IH]; intros F k fs c C G; cbn [decMembers]; [apply follows_refl|]. cbn [checkMembers] in C. apply andb_true_iff in C as [C1 C2].
  apply (follows_bind _ _ _ (fun kk nn => decMember camel r' (dcall' kk) nn cenv d mb fs c)); [eapply (Forall_inv F); eauto|]. intros [a c1] H.
  eapply IH; eauto using Forall_inv_tail. eapply good_suffix; eauto. apply (tame_member camel r dcall (leaves_call camel r m) n cenv dat mb _ _ _ _ H).
Qed.
Lemma mod_choice : forall x all cs, choice r x all cs = choice r' x all cs.
Proof. intros x all cs. unfold choice. assert (P : pickCase r x cs = pickCase r' x cs) by (induction cs as [|[[l|] ms] cs IH]; cbn [pickCase]; auto; now rewrite mod_inList, IH). now rewrite P. Qed.
Lemma mod_member : forall mb, moves mb.
Proof.
  induction mb as [nm b|u tag len cs IH| | |] using member_ind'; intros k fs c C G; try apply follows_refl.
  - cbn [decMember checkMember] in *. apply (follows_bind _ _ _ (fun kk nn => decType camel r' (dcall' kk) nn cenv d fs b c)); [eapply mod_type; eauto|]. intros [v c1] _. apply follows_refl.
  - destruct (check_union _ _ _ _ _ _ _ C) as (_ & _ & CC). rewrite decMember_union. cbn zeta.
    set (body' := fun kk nn c => x <- refVal camel fs cenv tag ;; decPick camel r' (dcall' kk) nn cenv dat cs x cs fs c).
    eapply follows_ext with (f := fun kk nn => match len with None => body' kk nn c | Some l => decConstr camel r' cenv fs c l (body' kk nn) end).
    { exists O. intros kk nn _ _. now rewrite decMember_union. }
    assert (B : forall c, goBytes c -> follows (x <- refVal camel fs cenv tag ;; decPick camel r dcall n cenv dat cs x cs fs c) (fun kk nn => body' kk nn c)).
    { intros c0 G0. unfold body'. destruct (refVal camel fs cenv tag) as [x| | |]; cbn [bind]; try apply follows_refl. rewrite decPick_choice.
      eapply follows_ext with (f := fun kk nn => match choice r x cs cs with Some ms => decMembers camel r' (dcall' kk) nn cenv (blen dat) ms fs c0 | None => Ok (fs, c0) end).
      { exists O. intros kk nn _ _. rewrite decPick_choice. now rewrite mod_choice. }
      destruct (choice r x cs cs) as [ms|] eqn:E; [|apply follows_refl]. destruct (choice_in r _ _ _ E) as [l Il]. rewrite Forall_forall in IH. specialize (IH _ Il). cbn in IH. destruct (CC _ Il) as [_ CM].
      eapply mod_members0; eauto. }
    destruct len as [[f|i]|]; cbn [decConstr]; auto.
    + destruct (refVal camel fs cenv f) as [x| | |]; cbn [bind]; try apply follows_refl. now apply (mod_within _ (s64 x) c _ body').
    + rewrite mod_integer. destruct (integerOf r' i) as [j| | |]; cbn [bind]; try apply follows_refl. now apply (mod_leaving _ j c _ body').
Qed.
Lemma mod_members : forall ms k fs c, checkMembers r ctxs k ms = true -> goBytes c -> follows (decMembers camel r dcall n cenv d ms fs c) (fun kk nn => decMembers camel r' (dcall' kk) nn cenv d ms fs c).
Proof. intros ms. apply mod_members0. apply Forall_forall. intros mb _. apply mod_member. Qed.
End Body.

Lemma args_valid : forall cs cenv, envOK cenv cs -> exists args, ctxArgs cenv cs = Ok args /\ Forall2 (fun x v => exists c, Context r x = Some c /\ ctxValue camel c v) cs args.
Proof.
  unfold ctxArgs. induction cs as [|x cs IH]; intros cenv H; cbn [mapM]; [exists []; split; [reflexivity|constructor]|].
  destruct (H x (or_introl eq_refl)) as (v & c & -> & E & V). cbn [bind]. destruct (IH cenv) as (args & -> & F); [intros y I; apply H; now right|]. cbn [bind]. exists (v :: args). split; [reflexivity|]. constructor; eauto.
Qed.
Lemma env_args : forall cs args, Forall2 (fun x v => exists c, Context r x = Some c /\ ctxValue camel c v) cs args -> envOK (combine cs args) cs.
Proof.
  induction 1 as [|x v cs args (c & E & V) F IH]; intros y I; [destruct I|]. cbn [combine alookup]. destruct (String.eqb_spec y x) as [->|NE]; eauto. destruct I as [->|I]; [contradiction|]. exact (IH y I).
Qed.
Lemma mod_struct : forall m, (forall nm s cenv c, Struct r nm = Some s -> Extern s = false -> envOK cenv (scontexts s) -> goBytes c -> follows (decCall camel r m nm cenv c) (fun k _ => decCall camel r' k nm cenv c)) ->
  forall s fs0 args c, checkStruct camel r s = true -> ctxValues camel r s args -> goBytes c ->
  follows (decStruct camel r (S m) s fs0 (contextsOf s args) c) (fun k _ => decStruct camel r' k s fs0 (contextsOf s args) c).
Proof.
  intros m HC s fs0 args c C V G. cbn [decStruct].
  destruct (mod_members m HC m (contextsOf s args) (scontexts s) (env_args _ _ V) c (members_of s) [] fs0 c (checked_members camel r s C) G) as [E|[k0 E]]; [now left|].
  right. exists (S k0). intros [|k] q K _; [lia|]. cbn [decStruct]. apply E; lia.
Qed.
Lemma call_struct : forall q m nm s cenv args c, Struct q nm = Some s -> checkStruct camel q s = true -> ctxArgs cenv (scontexts s) = Ok args ->
  decCall camel q m nm cenv c = ('(fs, c1) <- decStruct camel q m s (blank camel (Constant q) s) (contextsOf s args) c ;; Ok (VStruct (camel nm) fs, c1)).
Proof.
  intros q m nm s cenv args c E C A. destruct (structDecl_ok camel q s C) as [ds D]. destruct m; cbn [decCall decStruct]; rewrite E, D; cbn [bind]; rewrite A; cbn [bind]; auto.
  rewrite (zeros_blank camel q s ds D). reflexivity.
Qed.
Lemma mod_call : forall m nm s cenv c, Struct r nm = Some s -> Extern s = false -> envOK cenv (scontexts s) -> goBytes c ->
  follows (decCall camel r m nm cenv c) (fun k _ => decCall camel r' k nm cenv c).
Proof.
  induction m as [|m IH]; intros nm s cenv c E X EO G; destruct (args_valid _ _ EO) as (args & A & V); rewrite (call_struct r _ nm s cenv args c E (CK _ _ E X) A); [now left|].
  destruct (ST nm s E X) as [E'|(t' & SR' & XT' & SC & TT)].
  2: { rewrite <- SC in A.
    eapply follows_ext with (f := fun k _ => '(fs, c1) <- decStruct camel r' k t' (blank camel (Constant r') t') (contextsOf t' args) c ;; Ok (VStruct (camel nm) fs, c1)).
    { exists O. intros k q _ _. exact (call_struct r' k nm t' cenv args c SR' (CK' _ _ SR' XT') A). }
    apply (follows_bind _ _ _ (fun k _ => decStruct camel r' k t' (blank camel (Constant r') t') (contextsOf t' args) c)); [now apply TT|]. intros [fs c1] _. apply follows_refl. }
  - eapply follows_ext with (f := fun k _ => '(fs, c1) <- decStruct camel r' k s (blank camel (Constant r) s) (contextsOf s args) c ;; Ok (VStruct (camel nm) fs, c1)).
    { exists O. intros k q _ _. rewrite mod_blank. exact (call_struct r' k nm s cenv args c E' (CK' _ _ E' X) A). }
    apply (follows_bind _ _ _ (fun k _ => decStruct camel r' k s (blank camel (Constant r) s) (contextsOf s args) c)); [apply mod_struct; eauto|]. intros [fs c1] _. apply follows_refl.
Qed.
Lemma mod_top : forall m s fs0 args c, checkStruct camel r s = true -> ctxValues camel r s args -> goBytes c ->
  follows (decStruct camel r m s fs0 (contextsOf s args) c) (fun k _ => decStruct camel r' k s fs0 (contextsOf s args) c).
Proof. intros [|m] s fs0 args c C V G; [now left|]. apply mod_struct; auto. intros. eapply mod_call; eauto. Qed.
End Mod.
