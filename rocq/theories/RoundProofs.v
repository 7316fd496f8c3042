(** Proofs about writing values: what was parsed is written back, and what fits is
    parsed. *)
From Coq Require Import ZArith String List Bool Lia ZifyBool ZifyNat.
From Verif Require Import Base Ast IntervalsModel InspectModel InspectSpec InspectProofs BranchProofs GoLang GenModel GenDecode GenCheck
  GenSim GenSimBody GenSimProg WireSpec WireProofs WireComplete GenTerm GenSafe GenMono GenRecv GenExt WireFacts ReachSpec ReachProofs PackageSpec PackageProofs PackageFacts
  PackageMore RoundSpec.
Import ListNotations.
Open Scope string_scope.
Open Scope list_scope.
Open Scope Z_scope.
Ltac Zify.zify_post_hook ::= Z.div_mod_to_equations.

Lemma digits_length : forall k x, List.length (digits k x) = k.
Proof. induction k as [|k IH]; intros x; cbn [digits]; auto. rewrite app_length, IH. cbn. lia. Qed.
Lemma digits_be : forall k x, 0 <= x < 256 ^ Z.of_nat k -> bigEndian (digits k x) x.
Proof.
  induction k as [|k IH]; intros x H; cbn [digits].
  - change (256 ^ Z.of_nat 0) with 1 in H. assert (x = 0) by lia. subst. constructor.
  - rewrite Nat2Z.inj_succ, Z.pow_succ_r in H by lia.
    assert (E : 256 * (x / 256) + x mod 256 = x) by (symmetry; apply Z.div_mod; lia).
    rewrite <- E at 3. constructor; [apply IH; split; [apply Z.div_pos; lia|apply Z.div_lt_upper_bound; lia]|]. unfold is_byte. pose proof (Z.mod_pos_bound x 256). lia.
Qed.
Lemma be_digits : forall w x, bigEndian w x -> w = digits (List.length w) x.
Proof.
  intros w x H. eapply bigEndian_inj; [exact H| |].
  - apply digits_be. pose proof (bigEndian_bound _ _ H) as B. unfold blen in B. change 256 with (2 ^ 8). rewrite <- Z.pow_mul_r by lia. lia.
  - unfold blen. now rewrite digits_length.
Qed.
Lemma be_bound : forall w x, bigEndian w x -> 0 <= x < 256 ^ blen w.
Proof.
  intros w x H. pose proof (bigEndian_bound _ _ H) as B. change 256 with (2 ^ 8). rewrite <- Z.pow_mul_r by (try lia; apply blen_nonneg). lia.
Qed.

Lemma all_cons : forall {A} (f : A -> option bytes) x l, all f (x :: l) = both (f x) (all f l).
Proof. reflexivity. Qed.
Lemma depth_in : forall l v, In v l -> (vdepth v <= fold_right (fun x d => Nat.max (vdepth x) d) O l)%nat.
Proof. induction l as [|a l IH]; intros v I; [destruct I|]. cbn [fold_right]. destruct I as [->|I]; [lia|]. specialize (IH _ I). lia. Qed.
Lemma depth_lookup : forall fs g v, alookup g fs = Some v -> (vdepth v <= fdepth fs)%nat.
Proof.
  unfold fdepth. induction fs as [|[h x] fs IH]; intros g v E; [discriminate|]. cbn [alookup fst snd fold_right] in *.
  destruct (String.eqb g h); [injection E as ->; lia|]. specialize (IH _ _ E). lia.
Qed.

(** References in a type. *)
Fixpoint refsT (t : type) : list idref :=
  match t with
  | TFixed b _ => refsT b
  | TVar b (Some (LRef f)) => f :: refsT b
  | TVar b _ => refsT b
  | _ => []
  end.

Section Round.
Variable camel : string -> string.
Variable r : resolver.
Notation cv := (Constant r).
Notation sv := (Struct r).
Notation Enc := (enc camel cv sv True).
Notation EncN := (encN camel cv sv True).
Notation EncAll := (encAll camel cv sv True).
Notation EncM := (encM camel cv sv True).
Notation EncMs := (encMs camel cv sv True).
Notation EncCase := (encCase camel cv sv True).
Notation Present := (present camel r).

Definition callW (n : nat) (cenv : amap value) (nm : string) (f : amap value) : option bytes :=
  match n, sv nm with
  | S n', Some s' => match handed cenv (scontexts s') with Some cenv' => write camel r n' cenv' s' f | None => None end
  | _, _ => None
  end.
Definition callF (n : nat) (cenv : amap value) (nm : string) (f : amap value) (tl : bytes) : Prop :=
  match n with
  | S n' => exists s' cenv', sv nm = Some s' /\ Extern s' = false /\ passes cenv s' cenv' /\
              kept camel r cenv' s' (blank camel cv s') f /\ fits camel r n' cenv' s' f tl
  | O => False
  end.
Lemma write_eq : forall n cenv s fin, write camel r n cenv s fin = all (writeM camel r (callW n) cenv fin) (members_of s).
Proof. intros []; reflexivity. Qed.
Lemma fits_eq : forall n cenv s fin tl, fits camel r n cenv s fin tl =
  fitsMs camel r (callW n) cenv fin (fitsM camel r (callW n) (callF n) cenv fin) (members_of s) 0 tl.
Proof. intros []; reflexivity. Qed.

Lemma listed_spec : forall x l, listed r x l = true <-> in_list cv l x.
Proof.
  intros x l. unfold listed, in_list. rewrite existsb_exists. split.
  - intros (g & I & E). destruct (range_bounds cv g) as [[a b]|] eqn:R; [|discriminate]. exists g, a, b. repeat split; auto; lia.
  - intros (g & a & b & I & R & B). exists g. split; auto. rewrite R. lia.
Qed.
Lemma lookupRef_spec : forall cenv fin f x, lookupRef camel cenv fin f = Some x <-> refers camel cenv fin f x.
Proof.
  intros cenv fin f x. unfold lookupRef, refers. destruct (String.eqb (rscope f) "").
  - destruct (alookup (camel (rname f)) fin) as [[]|]; split; intros H; try discriminate; congruence.
  - split.
    + destruct (alookup (rscope f) cenv) as [[]|]; try discriminate. destruct (alookup (camel (rname f)) fs) as [[]|] eqn:E; try discriminate.
      injection 1 as ->. eauto.
    + intros (ty & cf & -> & ->). reflexivity.
Qed.
Lemma handed_spec : forall cenv s cenv', handed cenv (scontexts s) = Some cenv' <-> passes cenv s cenv'.
Proof.
  intros cenv s. unfold passes. induction (scontexts s) as [|x l IH]; intros cenv'; cbn [handed]; split.
  - injection 1 as <-. constructor.
  - intros H. inversion H. reflexivity.
  - destruct (alookup x cenv) as [v|] eqn:E; [|discriminate]. destruct (handed cenv l) as [l'|]; [|discriminate]. injection 1 as <-.
    constructor; [auto|]. now apply IH.
  - intros H. inversion H as [|? [y v] ? ? [E1 E2] F]; subst. cbn in *. subst. rewrite E2. apply IH in F. now rewrite F.
Qed.

(** The case of a union. *)
Definition goW (f : list member -> option bytes) (x : Z) := fix go (cs : list ucase) (dflt : option bytes) : option bytes :=
  match cs with
  | [] => dflt
  | UCase (Some l) ms :: cs' => if listed r x l then f ms else go cs' dflt
  | UCase None ms :: cs' => go cs' (f ms)
  end.
Lemma writeM_union : forall call cenv fin u tag len cs, writeM camel r call cenv fin (MUnion u tag len cs) =
  match lookupRef camel cenv fin tag with Some x => goW (all (writeM camel r call cenv fin)) x cs (Some []) | None => None end.
Proof. reflexivity. Qed.
Lemma goW_skip : forall f x pre, Forall (fun p => ~ case_matches cv p x) pre ->
  forall post d, exists d', goW f x (pre ++ post) d = goW f x post d' /\ ((forall c, In c pre -> ucase_list c <> None) -> d' = d).
Proof.
  intros f x pre F. induction F as [|c pre N F IH]; intros post d; [exists d; split; auto|].
  destruct c as [[l|] ms]; cbn [app goW].
  - destruct (listed r x l) eqn:L; [exfalso; apply N; exists l; split; auto; now apply listed_spec|].
    destruct (IH post d) as (d' & E & H). exists d'. split; auto. intros A. apply H. intros c Ic. apply A. now right.
  - destruct (IH post (f ms)) as (d' & E & H). exists d'. split; auto. intros A. exfalso. apply (A (UCase None ms)); [now left|reflexivity].
Qed.
Lemma goW_takes : forall f x cs c d, one_default cs -> takes cv cs x c -> goW f x cs d = f (ucase_members c).
Proof.
  intros f x cs c d OD [(pre & post & -> & (l & El & IL) & F)|(F & I & El)].
  - destruct (goW_skip f x pre F (c :: post) d) as (d' & -> & _). destruct c as [l' ms]. cbn in *. subst l'. cbn [goW].
    apply listed_spec in IL. now rewrite IL.
  - apply in_split in I as (a & b & ->). apply Forall_app in F as [Fa Fb]. inversion Fb as [|? ? _ Fb']; subst.
    destruct (goW_skip f x a Fa (c :: b) d) as (d' & -> & _). destruct c as [l' ms]. cbn in *. subst l'. cbn [goW].
    destruct (goW_skip f x b Fb' [] (f ms)) as (d2 & E & H). rewrite app_nil_r in E. rewrite E. cbn [goW]. apply H.
    intros c Ic Ec. apply in_split in Ic as (b1 & b2 & ->). eapply (OD a _ b1 c b2); eauto.
Qed.
Lemma goW_none : forall f x cs d, (forall c, ~ takes cv cs x c) -> goW f x cs d = d.
Proof.
  intros f x cs d N.
  assert (F : Forall (fun p => ~ case_matches cv p x) cs).
  { assert (G : forall pre post, cs = pre ++ post -> Forall (fun p => ~ case_matches cv p x) pre).
    { intros pre. induction pre as [|c pre IH] using rev_ind; intros post E; [constructor|]. rewrite <- app_assoc in E.
      apply Forall_app. split; [eapply IH; eauto|]. constructor; [|constructor]. intros M. apply (N c). left. exists pre, post. cbn in E. eauto. }
    apply (G cs []). now rewrite app_nil_r. }
  destruct (goW_skip f x cs F [] d) as (d' & E & H). rewrite app_nil_r in E. rewrite E. cbn [goW]. apply H.
  intros c Ic Ec. apply (N c). right. auto.
Qed.
Definition goF (g : list member -> Prop) (x : Z) (all : list ucase) := fix go (cs' : list ucase) : Prop :=
  match cs' with
  | [] => True
  | UCase l ms :: cs'' => (takes cv all x (UCase l ms) -> g ms) /\ go cs''
  end.
Lemma goF_spec : forall g x all cs, goF g x all cs <-> forall c, In c cs -> takes cv all x c -> g (ucase_members c).
Proof.
  intros g x all. induction cs as [|[l ms] cs IH]; cbn [goF]; split.
  - intros _ c [].
  - auto.
  - intros [H1 H2] c [<-|I]; auto. apply IH; auto.
  - intros H. split; [apply (H (UCase l ms)); now left|]. apply IH. intros c I. apply H. now right.
Qed.
Lemma fitsM_union : forall call fine cenv fin u tag len cs pos tail, fitsM camel r call fine cenv fin (MUnion u tag len cs) pos tail =
  (exists x, refers camel cenv fin tag x /\
      match len with
      | None => True
      | Some (LRef f) => refers camel cenv fin f (blen (some (writeM camel r call cenv fin (MUnion u tag len cs))))
      | Some (LLeftover i) => int_value cv i = Some (blen tail)
      end /\
      goF (fun ms => fitsMs camel r call cenv fin (fitsM camel r call fine cenv fin) ms pos (match len with None => tail | Some _ => [] end)) x cs cs).
Proof. reflexivity. Qed.

Lemma refsT_base : forall ctxs t, checkBase r ctxs t = true -> refsT t = [].
Proof. intros ctxs [] H; try reflexivity; discriminate. Qed.
Lemma refsT_refs : forall ctxs k nm t, checkType r ctxs k t = true -> forall f, In f (refsT t) -> In f (refsOf (MField nm t)).
Proof.
  intros ctxs k nm t C f I. destruct t as [| | | | |b i|b [[g|i]|]]; cbn [refsT] in I; try (now destruct I); cbn [checkType] in C.
  - apply andb_true_iff in C as [C _]. rewrite (refsT_base _ _ C) in I. destruct I.
  - apply andb_true_iff in C as [C _]. rewrite (refsT_base _ _ C) in I. exact I.
  - apply andb_true_iff in C as [C _]. rewrite (refsT_base _ _ C) in I. destruct I.
  - rewrite (refsT_base _ _ C) in I. destruct I.
Qed.
Lemma case_nodup : forall cs c, NoDup (map camel (flat_map (fun c => match c with UCase _ ms => flat_map fieldNames ms end) cs)) -> In c cs ->
  NoDup (map camel (flat_map fieldNames (ucase_members c))).
Proof.
  intros cs c ND Ic.
  assert (X : map camel (flat_map (fun c => match c with UCase _ ms => flat_map fieldNames ms end) cs) =
              flat_map (fun c => map camel (match c with UCase _ ms => flat_map fieldNames ms end)) cs).
  { clear. induction cs; auto. cbn. now rewrite map_app, IHcs. }
  rewrite X in ND. pose proof (NoDup_flat_map _ _ _ ND Ic). destruct c; auto.
Qed.
Lemma case_names : forall u tag len cs c, In c cs -> incl (flat_map fieldNames (ucase_members c)) (fieldNames (MUnion u tag len cs)).
Proof. intros u tag len cs c Ic y Hy. cbn [fieldNames]. apply in_flat_map. exists c. split; auto. destruct c; auto. Qed.

Hypothesis Hstr : forall nm s, sv nm = Some s -> Extern s = false -> checkStruct camel r s = true.

(* ---------- what was parsed is written back ---------- *)
Section Back.
Variable root : struct.
Hypothesis IF : ignoreFree r root.

Definition refsKept (cenv fs fin : amap value) (t : type) : Prop := forall f x, In f (refsT t) -> refers camel cenv fs f x -> refers camel cenv fin f x.

Definition F1 cenv pos fs t v (w tail : bytes) : Prop := ifT r root t -> forall fin, refsKept cenv fs fin t -> forall n, (vdepth v <= n)%nat ->
  writeT (callW n) cenv t v = Some w /\ fitsT camel r (callW n) (callF n) cenv fin t pos v tail.
Definition F2 cenv pos fs b vs (w tail : bytes) : Prop := ifT r root b -> forall fin, refsKept cenv fs fin b -> forall n, (forall v, In v vs -> vdepth v <= n)%nat ->
  all (writeT (callW n) cenv b) vs = Some w /\ fitsN (callW n) cenv (fitsT camel r (callW n) (callF n) cenv fin b) b pos vs tail.
Definition F3 cenv pos fs b vs (w : bytes) : Prop := ifT r root b -> forall fin, refsKept cenv fs fin b -> forall n, (forall v, In v vs -> vdepth v <= n)%nat ->
  all (writeT (callW n) cenv b) vs = Some w /\ fitsAll (callW n) cenv (fitsT camel r (callW n) (callF n) cenv fin b) b pos vs.
Definition F4 cenv pos m fs (w tail : bytes) fs' : Prop := ifM r root m ->
  forall ctxs k, checkMember r ctxs k m = true -> defaultsM m = true -> apart camel k (fieldNames m) -> NoDup (map camel (fieldNames m)) ->
  hasNames camel (fieldNames m) fs -> forall fin, agreeOn camel (map fst k) fs fin -> agreeOn camel (fieldNames m) fs' fin ->
  forall n, (fdepth fin <= n)%nat ->
  writeM camel r (callW n) cenv fin m = Some w /\ fitsM camel r (callW n) (callF n) cenv fin m pos tail.
Definition F6 cenv pos ms fs (w tail : bytes) fs' : Prop := Forall (ifM r root) ms ->
  forall ctxs k, checkMembers r ctxs k ms = true -> forallb defaultsM ms = true -> apart camel k (flat_map fieldNames ms) ->
  NoDup (map camel (flat_map fieldNames ms)) -> hasNames camel (flat_map fieldNames ms) fs ->
  forall fin, agreeOn camel (map fst k) fs fin -> agreeOn camel (flat_map fieldNames ms) fs' fin ->
  forall n, (fdepth fin <= n)%nat ->
  all (writeM camel r (callW n) cenv fin) ms = Some w /\
  fitsMs camel r (callW n) cenv fin (fitsM camel r (callW n) (callF n) cenv fin) ms pos tail.
Definition F5 cenv pos cs x fs (w tail : bytes) fs' : Prop :=
  one_default cs -> (forall c, In c cs -> Forall (ifM r root) (ucase_members c)) ->
  forall ctxs k, (forall c, In c cs -> checkMembers r ctxs k (ucase_members c) = true /\ forallb defaultsM (ucase_members c) = true) ->
  forall ns, (forall c, In c cs -> incl (flat_map fieldNames (ucase_members c)) ns /\ NoDup (map camel (flat_map fieldNames (ucase_members c)))) ->
  apart camel k ns -> hasNames camel ns fs ->
  forall fin, agreeOn camel (map fst k) fs fin -> agreeOn camel ns fs' fin ->
  forall n, (fdepth fin <= n)%nat ->
  goW (all (writeM camel r (callW n) cenv fin)) x cs (Some []) = Some w /\
  goF (fun ms => fitsMs camel r (callW n) cenv fin (fitsM camel r (callW n) (callF n) cenv fin) ms pos tail) x cs cs.

Lemma union_back : forall cenv pos u tag len cs x fs w tail tl fs', F5 cenv pos cs x fs w tl fs' -> refers camel cenv fs tag x ->
  tl = match len with None => tail | Some _ => [] end ->
  (forall fin, (forall f y, In f (refsOf (MUnion u tag len cs)) -> refers camel cenv fs f y -> refers camel cenv fin f y) ->
     match len with None => True | Some (LRef f) => refers camel cenv fin f (blen w) | Some (LLeftover i) => int_value cv i = Some (blen tail) end) ->
  F4 cenv pos (MUnion u tag len cs) fs w tail fs'.
Proof.
  intros cenv pos u tag len cs x fs w tail tl fs' IH R -> LEN [IG O] ctxs k C D A ND HN fin K AG n DP.
  assert (RF : forall f y, In f (refsOf (MUnion u tag len cs)) -> refers camel cenv fs f y -> refers camel cenv fin f y)
    by (intros f y; eapply (refs_final camel r _ _ _ _ _ _ C K)).
  assert (R2 : refers camel cenv fin tag x) by (apply RF; auto; destruct len as [[]|]; now left).
  destruct (check_union _ _ _ _ _ _ _ C) as (_ & _ & CC). cbn [defaultsM] in D. apply andb_true_iff in D as [D1 D2]. rewrite forallb_forall in D2.
  destruct (IH (proj1 (oneDefaultb_spec _) D1)) with (ctxs := ctxs) (k := k) (ns := fieldNames (MUnion u tag len cs)) (fin := fin) (n := n) as [W F]; auto.
  - intros [l ms] Ic. cbn [ucase_members]. apply Forall_forall. intros m Im. cbn [ignoring mentions] in *. split.
    + destruct (ignoring m) eqn:E; auto. rewrite <- IG. symmetry. apply existsb_exists. exists (UCase l ms). split; auto.
      apply existsb_exists. eauto.
    + intros nm s J. apply O. apply in_flat_map. exists (UCase l ms). split; auto. apply in_flat_map. eauto.
  - intros c Ic. split; [apply CC; auto|]. specialize (D2 _ Ic). destruct c; auto.
  - intros c Ic. split; [eapply case_names; eauto|eapply case_nodup; eauto].
  - assert (WE : writeM camel r (callW n) cenv fin (MUnion u tag len cs) = Some w)
      by (rewrite writeM_union; apply lookupRef_spec in R2; now rewrite R2).
    split; auto. rewrite fitsM_union, WE. exists x. split; [auto|]. split; [exact (LEN fin RF)|exact F].
Qed.

Theorem back : forall cenv,
  (forall pos fs t v w tail, Enc cenv pos fs t v w tail -> F1 cenv pos fs t v w tail) /\
  (forall pos fs b vs w tail, EncN cenv pos fs b vs w tail -> F2 cenv pos fs b vs w tail) /\
  (forall pos fs b vs w, EncAll cenv pos fs b vs w -> F3 cenv pos fs b vs w) /\
  (forall pos m fs w tail fs', EncM cenv pos m fs w tail fs' -> F4 cenv pos m fs w tail fs') /\
  (forall pos cs x fs w tail fs', EncCase cenv pos cs x fs w tail fs' -> F5 cenv pos cs x fs w tail fs') /\
  (forall pos ms fs w tail fs', EncMs cenv pos ms fs w tail fs' -> F6 cenv pos ms fs w tail fs').
Proof.
  apply (enc_mutind camel cv sv True
    (fun cenv pos fs t v w tail _ => F1 cenv pos fs t v w tail)
    (fun cenv pos fs b vs w tail _ => F2 cenv pos fs b vs w tail)
    (fun cenv pos fs b vs w _ => F3 cenv pos fs b vs w)
    (fun cenv pos m fs w tail fs' _ => F4 cenv pos m fs w tail fs')
    (fun cenv pos cs x fs w tail fs' _ => F5 cenv pos cs x fs w tail fs')
    (fun cenv pos ms fs w tail fs' _ => F6 cenv pos ms fs w tail fs')).
  - intros cenv pos fs sz cst x w tail B L IL _ fin _ n _. cbn [writeT fitsT]. split.
    + f_equal. rewrite (be_digits _ _ B). f_equal. unfold blen in L. lia.
    + split; auto. rewrite <- L. now apply be_bound.
  - intros cenv pos fs x w tail B L _ fin _ n _. cbn [writeT fitsT]. split.
    + f_equal. rewrite (be_digits _ _ B). f_equal. unfold blen in L. lia.
    + pose proof (be_bound _ _ B) as H. rewrite L in H. exact H.
  - intros cenv pos fs s tail N _ fin _ n _. cbn [writeT fitsT]. auto.
  - intros cenv pos fs tail _ fin _ n _. cbn [writeT fitsT]. auto.
  - intros cenv pos fs nm s cenv' fs' w tail ES EX PA EM IH O fin _ n DP. cbn [writeT fitsT].
    destruct (checked_parts camel r s (Hstr _ _ ES EX)) as (C1 & C2 & C3). cbn [vdepth] in DP. destruct n as [|n]; [lia|].
    assert (X : all (writeM camel r (callW n) cenv' fs') (members_of s) = Some w /\
                fitsMs camel r (callW n) cenv' fs' (fitsM camel r (callW n) (callF n) cenv' fs') (members_of s) 0 tail).
    { apply (IH) with (ctxs := scontexts s) (k := []); auto.
      - apply Forall_forall. intros m I. eapply ifM_struct; eauto. eapply O; eauto. now left.
      - intros a b [].
      - apply blank_has.
      - intros a [].
      - intros a _. reflexivity.
      - unfold fdepth. lia. }
    destruct X as [W F]. cbn [callW callF]. rewrite ES. rewrite (proj2 (handed_spec _ _ _) PA), write_eq. split; [exact W|]. split; [reflexivity|].
    exists s, cenv'. split; [auto|]. split; [auto|]. split; [auto|]. rewrite fits_eq. split; [|exact F]. split.
    + symmetry. symmetry. apply (encMs_dom camel r True _ _ _ _ _ _ _ EM).
    + intros g NP. destruct (changed_present_ms camel r True cenv' fs' (scontexts s) (members_of s) [] 0 _ w tail fs' EM C1) with (g := g) as [X|(nm' & t & E' & P)]; auto.
      * intros a b [].
      * intros a [].
      * intros a _. reflexivity.
      * exfalso. eapply NP; eauto.
  - intros cenv pos fs b i k vs w tail E L _ IH O fin RK n DP. cbn [writeT fitsT]. cbn [vdepth] in DP.
    destruct (IH O fin RK n) as [W F]; [intros v I; pose proof (depth_in _ _ I); lia|]. rewrite L. auto.
  - intros cenv pos fs b f vs w tail R _ IH O fin RK n DP. cbn [writeT fitsT]. cbn [vdepth] in DP.
    destruct (IH O fin) with (n := n) as [W F]; [intros g x I; apply RK; now right|intros v I; pose proof (depth_in _ _ I); lia|].
    split; auto. split; auto. apply RK; auto. now left.
  - intros cenv pos fs b vs w _ IH O fin RK n DP. cbn [writeT fitsT]. cbn [vdepth] in DP.
    destruct (IH O fin) with (n := n) as [W F]; [auto|intros v I; pose proof (depth_in _ _ I); lia|]. auto.
  - intros cenv pos fs b i k vs w tail E L _ IH O fin RK n DP. cbn [writeT fitsT]. cbn [vdepth] in DP.
    destruct (IH O fin) with (n := n) as [W F]; [auto|intros v I; pose proof (depth_in _ _ I); lia|]. rewrite L. auto.
  - intros cenv pos fs b tail O fin RK n DP. cbn. auto.
  - intros cenv pos fs b v vs w1 w2 tail _ IH1 _ IH2 O fin RK n DP.
    destruct (IH1 O fin RK n (DP v (or_introl eq_refl))) as [W1 E1]. destruct (IH2 O fin RK n) as [W2 E2]; [intros v' I; apply DP; now right|].
    rewrite all_cons. cbn [fitsN]. fold (fitsN (callW n) cenv (fitsT camel r (callW n) (callF n) cenv fin b) b).
    rewrite W1, W2. cbn [both some]. auto.
  - intros cenv pos fs b O fin RK n DP. cbn. auto.
  - intros cenv pos fs b v vs w1 w2 NE _ IH1 _ IH2 O fin RK n DP.
    destruct (IH1 O fin RK n (DP v (or_introl eq_refl))) as [W1 E1]. destruct (IH2 O fin RK n) as [W2 E2]; [intros v' I; apply DP; now right|].
    cbn [fitsAll]. fold (fitsAll (callW n) cenv (fitsT camel r (callW n) (callF n) cenv fin b) b). rewrite all_cons.
    rewrite W1, W2. cbn [both some]. auto.
  - intros cenv pos nm t fs v w tail _ IH [_ O] ctxs k C D A ND HN fin K AG n DP. cbn [fieldNames writeM fitsM checkMember] in *.
    specialize (AG nm (or_introl eq_refl)). rewrite set_lookup in AG by (apply HN; now left). rewrite <- AG.
    destruct (IH O fin) with (n := n) as [W F].
    + intros f x I. apply (refs_final camel r _ _ _ _ (MField nm t) _ C K). eapply refsT_refs; eauto.
    + pose proof (depth_lookup _ _ _ (eq_sym AG)). lia.
    + split; auto. exists v. auto.
  - intros cenv pos u tag cs x fs w tail fs' R _ IH. eapply union_back; eauto.
  - intros cenv pos u tag f cs x fs w tail fs' R R2 _ IH. eapply union_back; eauto. cbn. intros fin H. apply H; auto.
  - intros cenv pos u tag i k cs x fs w tail fs' R E L _ IH. eapply union_back; eauto. cbn. intros. now rewrite L.
  - intros cenv pos fs O ctxs k C D A ND HN fin K AG n DP. cbn. auto.
  - intros cenv pos fs w [O _]. discriminate.
  - intros cenv pos cs x c fs w tail fs' T _ IH OD O ctxs k C ns NS A HN fin K AG n DP. pose proof (takes_in _ _ _ _ T) as Ic.
    destruct (C _ Ic) as [C1 C2]. destruct (NS _ Ic) as [N1 N2].
    destruct (IH (O _ Ic) ctxs k C1 C2) with (fin := fin) (n := n) as [W F]; auto.
    + intros a b Ha Hb. apply A; auto.
    + intros a Ha. auto.
    + intros a Ha. auto.
    + rewrite (goW_takes _ _ _ _ _ OD T). split; auto. apply goF_spec. intros c' _ T'. assert (c' = c) by (eapply takes_unique; eauto). now subst c'.
  - intros cenv pos cs x fs tail LN NT OD O ctxs k C ns NS A HN fin K AG n DP. rewrite goW_none by auto. split; auto.
    apply goF_spec. intros c _ T. exfalso. eapply NT; eauto.
  - intros cenv pos fs tail O ctxs k C D A ND HN fin K AG n DP. cbn. auto.
  - intros cenv pos m ms fs w1 w2 tail fs1 fs2 HM IH1 HS IH2 F ctxs k C D A ND HN fin K AG n DP. inversion F as [|? ? Fa Fb]; subst.
    cbn [checkMembers] in C. apply andb_true_iff in C as [C1 C2]. cbn [forallb] in D. apply andb_true_iff in D as [D1 D2].
    cbn [flat_map] in *. rewrite map_app in ND.
    assert (AM : agreeOn camel (fieldNames m) fs1 fin).
    { intros a J. rewrite <- (encMs_frame _ _ _ _ _ _ _ _ _ _ HS (camel a)).
      - apply AG, in_or_app; auto.
      - intros nm I E. apply (NoDup_app_disj _ _ (camel a) ND); [now apply in_map|]. rewrite <- E. now apply in_map. }
    destruct (IH1 Fa ctxs k C1 D1) with (fin := fin) (n := n) as [W1 E1]; auto.
    { intros a b Ha Hb. apply (A a b Ha). apply in_or_app; auto. }
    { eapply NoDup_app_l; eauto. }
    { intros a Ha. apply HN, in_or_app; auto. }
    destruct (IH2 Fb ctxs (addKnown k m) C2 D2) with (fin := fin) (n := n) as [W2 E2]; auto.
    { intros a b Ha Hb. apply addKnown_names in Ha as [Ha|Ha]; [apply A; auto; apply in_or_app; auto|].
      intros E0. apply (NoDup_app_disj _ _ (camel a) ND); [now apply in_map|]. rewrite E0. now apply in_map. }
    { eapply NoDup_app_r; eauto. }
    { intros a Ha. rewrite (encM_dom _ _ _ _ _ _ _ _ _ _ HM). apply HN, in_or_app; auto. }
    { intros a J. apply addKnown_names in J as [J|J]; auto. rewrite (encM_frame _ _ _ _ _ _ _ _ _ _ HM (camel a)); auto.
      intros (nm & I & E). apply (A a nm J); auto. apply in_or_app; auto. }
    { intros a Ha. apply AG, in_or_app; auto. }
    rewrite all_cons. cbn [fitsMs]. fold (fitsMs camel r (callW n) cenv fin (fitsM camel r (callW n) (callF n) cenv fin)).
    rewrite W1, W2. cbn [both some]. auto.
Qed.

Theorem struct_back : checkStruct camel r root = true -> forall cenv fs w tail fs', EncMs cenv 0 (members_of root) fs w tail fs' ->
  hasNames camel (flat_map fieldNames (members_of root)) fs ->
  bytesOf camel r root cenv fs' = Some w /\ writable camel r root cenv fs' tail /\ kept camel r cenv root fs fs'.
Proof.
  intros CS cenv fs w tail fs' E HN. destruct (checked_parts camel r _ CS) as (C1 & C2 & C3).
  unfold bytesOf, writable. rewrite write_eq, fits_eq.
  destruct (proj2 (proj2 (proj2 (proj2 (proj2 (back cenv))))) _ _ _ _ _ _ E) with (ctxs := scontexts root) (k := @nil (string * Z)) (fin := fs') (n := fdepth fs') as [W F]; auto.
  - apply Forall_forall. intros m I. eapply ifM_struct; eauto. constructor.
  - intros a b [].
  - intros a [].
  - intros a _. reflexivity.
  - split; auto. split; auto. split; [eapply encMs_dom; eauto|].
    intros g NP. destruct (changed_present_ms camel r True cenv fs' (scontexts root) (members_of root) [] 0 _ w tail fs' E C1) with (g := g) as [X|(nm' & t & E' & P)]; auto.
    + intros a b [].
    + intros a [].
    + intros a _. reflexivity.
    + exfalso. eapply NP; eauto.
Qed.
End Back.

(* ---------- what fits is parsed ---------- *)

Lemma fields_ext : forall (a b : amap value), map fst a = map fst b -> NoDup (map fst a) -> (forall g, alookup g a = alookup g b) -> a = b.
Proof.
  induction a as [|[g v] a IH]; intros [|[h u] b] E ND L; try discriminate; auto. cbn in E. injection E as <- E. cbn in ND. inversion ND as [|? ? NI ND']; subst.
  assert (v = u). { specialize (L g). cbn in L. rewrite String.eqb_refl in L. now injection L. } subst u. f_equal. apply IH; auto.
  intros x. specialize (L x). cbn in L. destruct (String.eqb x g) eqn:Q; auto. apply String.eqb_eq in Q. rewrite Q.
  assert (NB : ~ In g (map fst b)) by now rewrite <- E.
  destruct (alookup g a) eqn:EA; [exfalso; apply NI; apply dom_lookup; congruence|].
  destruct (alookup g b) eqn:EB; [exfalso; apply NB; apply dom_lookup; congruence|]. reflexivity.
Qed.

(** A field is final, or it is not one of these. *)
Definition filled (cenv fs fs' fin : amap value) (ms : list member) : Prop := forall g, alookup g fs' = alookup g fin \/
  alookup g fs' = alookup g fs /\ forall nm t, camel nm = g -> ~ Present cenv fin ms (MField nm t).

Lemma present_cons : forall cenv fin m ms m', Present cenv fin (m :: ms) m' -> Present cenv fin [m] m' \/ Present cenv fin ms m'.
Proof.
  intros cenv fin m ms m' P. inversion P as [? ? I|? ? ? ? ? ? ? ? I]; subst.
  - destruct I as [->|I]; [left; constructor; now left|right; now constructor].
  - destruct I as [->|I]; [left; eapply P_case; eauto; now left|right; eapply P_case; eauto].
Qed.

Definition G1 n cenv t : Prop := forall pos v tail fs fin, fitsT camel r (callW n) (callF n) cenv fin t pos v tail ->
  (forall f x, In f (refsT t) -> refers camel cenv fin f x -> refers camel cenv fs f x) ->
  exists w, writeT (callW n) cenv t v = Some w /\ Enc cenv pos fs t v w tail.
Definition G6 n cenv fin ms : Prop := forall ctxs k pos fs tail, checkMembers r ctxs k ms = true -> forallb defaultsM ms = true -> apart camel k (flat_map fieldNames ms) ->
  NoDup (map camel (flat_map fieldNames ms)) -> hasNames camel (flat_map fieldNames ms) fs -> agreeOn camel (map fst k) fs fin ->
  fitsMs camel r (callW n) cenv fin (fitsM camel r (callW n) (callF n) cenv fin) ms pos tail ->
  exists w fs', all (writeM camel r (callW n) cenv fin) ms = Some w /\ EncMs cenv pos ms fs w tail fs' /\ filled cenv fs fs' fin ms.
Definition G4 n cenv fin m : Prop := forall ctxs k pos fs tail, checkMember r ctxs k m = true -> defaultsM m = true -> apart camel k (fieldNames m) ->
  NoDup (map camel (fieldNames m)) -> hasNames camel (fieldNames m) fs -> agreeOn camel (map fst k) fs fin ->
  fitsM camel r (callW n) (callF n) cenv fin m pos tail ->
  exists w fs', writeM camel r (callW n) cenv fin m = Some w /\ EncM cenv pos m fs w tail fs' /\ filled cenv fs fs' fin [m].
Definition G0 n : Prop := forall cenv nm f tl, callF n cenv nm f tl ->
  exists w s cenv', callW n cenv nm f = Some w /\ sv nm = Some s /\ Extern s = false /\ passes cenv s cenv' /\ EncMs cenv' 0 (members_of s) (blank camel cv s) w tl f.

Lemma fit_type : forall n cenv, G0 n -> forall t, G1 n cenv t.
Proof.
  intros n cenv CALL. 
  assert (FN : forall b, G1 n cenv b -> forall vs pos tail fs fin, fitsN (callW n) cenv (fitsT camel r (callW n) (callF n) cenv fin b) b pos vs tail ->
    (forall f x, In f (refsT b) -> refers camel cenv fin f x -> refers camel cenv fs f x) ->
    exists w, all (writeT (callW n) cenv b) vs = Some w /\ EncN cenv pos fs b vs w tail).
  { intros b IH. induction vs as [|v vs IHv]; intros pos tail fs fin F RK; [exists []; split; [reflexivity|constructor]|].
    cbn [fitsN] in F. fold (fitsN (callW n) cenv (fitsT camel r (callW n) (callF n) cenv fin b) b) in F. destruct F as [F1' F2'].
    destruct (IH _ _ _ fs fin F1' RK) as (w1 & W1 & E1). destruct (IHv _ _ fs fin F2' RK) as (w2 & W2 & E2).
    rewrite all_cons. rewrite W1, W2 in *. cbn [some both] in *. exists (w1 ++ w2). split; auto. now constructor. }
  assert (FA : forall b, G1 n cenv b -> forall vs pos fs fin, fitsAll (callW n) cenv (fitsT camel r (callW n) (callF n) cenv fin b) b pos vs ->
    (forall f x, In f (refsT b) -> refers camel cenv fin f x -> refers camel cenv fs f x) ->
    exists w, all (writeT (callW n) cenv b) vs = Some w /\ EncAll cenv pos fs b vs w).
  { intros b IH. induction vs as [|v vs IHv]; intros pos fs fin F RK; [exists []; split; [reflexivity|constructor]|].
    cbn [fitsAll] in F. fold (fitsAll (callW n) cenv (fitsT camel r (callW n) (callF n) cenv fin b) b) in F. destruct F as (NE & F1' & F2').
    destruct (IH _ _ _ fs fin F1' RK) as (w1 & W1 & E1). destruct (IHv _ fs fin F2' RK) as (w2 & W2 & E2).
    rewrite all_cons in *. rewrite W1, W2 in *. cbn [some both] in *. exists (w1 ++ w2). split; auto. now constructor. }
  induction t as [sz cst| | | |nm|b IH i|b IH len]; intros pos v tail fs fin F RK; cbn [fitsT] in F; cbn [writeT].
  - destruct v as [x| | | | | | |]; try contradiction. destruct F as [H1 H2]. eexists. split; [reflexivity|].
    assert (Z0 : 0 <= sz / 8). { destruct (Z_lt_le_dec (sz / 8) 0); auto. rewrite Z.pow_neg_r in H1 by auto. lia. }
    constructor; auto.
    + apply digits_be. rewrite Z2Nat.id by auto. auto.
    + unfold blen. rewrite digits_length. lia.
  - destruct v as [x| | | | | | |]; try contradiction. eexists. split; [reflexivity|]. constructor; [apply digits_be; exact F|reflexivity].
  - destruct v as [x| | | | | | |]; try contradiction. subst x. eexists. split; [reflexivity|]. constructor.
  - destruct v as [|x| | | | | |]; try contradiction. eexists. split; [reflexivity|]. now constructor.
  - destruct v as [| | | |ty f| | |]; try contradiction. destruct F as [-> F]. destruct (CALL _ _ _ _ F) as (w & s & cenv' & W & ES & EX & PA & E).
    exists w. split; auto. econstructor; eauto.
  - destruct v as [| | |vs| | | |]; try contradiction. destruct F as [E F]. destruct (FN b IH vs pos tail fs fin F RK) as (w & W & EN).
    exists w. split; auto. econstructor; eauto.
  - destruct v as [| | |vs| | | |]; [destruct len as [[]|]; contradiction..| | | | |]; [|destruct len as [[]|]; contradiction..].
    destruct len as [[f|i]|]; cbn [refsT] in RK.
    + destruct F as [E F]. destruct (FN b IH vs pos tail fs fin F) as (w & W & EN); [intros g x I; apply RK; now right|].
      exists w. split; auto. constructor; auto. apply RK; auto. now left.
    + destruct F as [E F]. destruct (FA b IH vs pos fs fin F RK) as (w & W & EN). exists w. split; auto. econstructor; eauto.
    + destruct F as [-> F]. destruct (FA b IH vs pos fs fin F RK) as (w & W & EN). exists w. split; auto. now constructor.
Qed.

Lemma fit_members : forall n cenv fin ms, Forall (G4 n cenv fin) ms -> G6 n cenv fin ms.
Proof.
  intros n cenv fin ms FA. induction FA as [|m ms HM _ IH]; intros ctxs k pos fs tail C D A ND HN K F.
  { exists [], fs. split; [reflexivity|]. split; [constructor|]. intros g. right. split; auto. intros nm t _ P. inversion P as [? ? I|? ? ? ? ? ? ? ? I]; destruct I. }
  cbn [checkMembers] in C. apply andb_true_iff in C as [C1 C2]. cbn [forallb] in D. apply andb_true_iff in D as [D1 D2].
  cbn [flat_map] in *. rewrite map_app in ND. cbn [fitsMs] in F. fold (fitsMs camel r (callW n) cenv fin (fitsM camel r (callW n) (callF n) cenv fin)) in F. destruct F as [Fa Fb].
  destruct (HM ctxs k pos fs (some (all (writeM camel r (callW n) cenv fin) ms) ++ tail) C1 D1) as (w1 & fs1 & W1 & E1 & FL1); auto.
  { intros a b Ha Hb. apply (A a b Ha). apply in_or_app; auto. }
  { eapply NoDup_app_l; eauto. }
  { intros a Ha. apply HN, in_or_app; auto. }
  destruct (IH ctxs (addKnown k m) (pos + blen (some (writeM camel r (callW n) cenv fin m))) fs1 tail C2 D2) as (w2 & fs2 & W2 & E2 & FL2); auto.
  { intros a b Ha Hb. apply addKnown_names in Ha as [Ha|Ha]; [apply A; auto; apply in_or_app; auto|].
    intros E0. apply (NoDup_app_disj _ _ (camel a) ND); [now apply in_map|]. rewrite E0. now apply in_map. }
  { eapply NoDup_app_r; eauto. }
  { intros a Ha. rewrite (encM_dom _ _ _ _ _ _ _ _ _ _ E1). apply HN, in_or_app; auto. }
  { intros a J. assert (OLD : In a (map fst k) -> alookup (camel a) fs1 = alookup (camel a) fin).
    { intros J'. rewrite (encM_frame _ _ _ _ _ _ _ _ _ _ E1 (camel a)); auto.
      intros (nm & I & E). apply (A a nm J'); auto. apply in_or_app; auto. }
    destruct m as [nm t| | | |]; cbn [addKnown] in J; auto. destruct t; auto. cbn [map] in J. destruct J as [J|J]; auto. cbn in J. subst a.
    destruct (FL1 (camel nm)) as [E|[_ N]]; auto. exfalso. eapply N; eauto. constructor. now left. }
  exists (w1 ++ w2), fs2. rewrite all_cons. rewrite W1, W2 in *. cbn [some both] in *. split; auto. split; [econstructor; eauto|].
  intros g. destruct (FL2 g) as [E|[E N]]; auto. rewrite E. destruct (FL1 g) as [E'|[E' N']]; auto. right. split; auto.
  intros nm t Eg P. apply present_cons in P as [P|P]; [eapply N'|eapply N]; eauto.
Qed.

Lemma fit_member : forall n cenv fin, G0 n -> forall m, G4 n cenv fin m.
Proof.
  intros n cenv fin CALL. induction m as [nm t|u tag len cs IH| | |] using member_ind'; intros ctxs k pos fs tail C D A ND HN K F.
  - cbn [fitsM] in F. destruct F as (v & E & F). cbn [checkMember] in C.
    destruct (fit_type n cenv CALL t pos v tail fs fin F) as (w & W & EN).
    { intros f x I. apply (refs_final camel r ctxs cenv fs k (MField nm t) fin C); [intros a Ha; symmetry; auto|eapply refsT_refs; eauto]. }
    exists w, (setField (camel nm) v fs). cbn [writeM]. rewrite E. split; auto. split; [now constructor|].
    intros g. rewrite setField_assign. destruct (String.eqb_spec g (camel nm)) as [->|N].
    + left. rewrite <- setField_assign, E. apply set_lookup. apply HN. now left.
    + right. split; [now apply alookup_assign_other|]. intros nm' t' E' P. inversion P as [? ? I|? ? ? ? ? ? ? ? I]; subst.
      * destruct I as [I|[]]. congruence.
      * destruct I as [I|[]]. discriminate.
  - rewrite fitsM_union in F. destruct F as (x & R & LEN & F).
    assert (RB : forall f y, In f (refsOf (MUnion u tag len cs)) -> refers camel cenv fin f y -> refers camel cenv fs f y).
    { intros f y. apply (refs_final camel r ctxs cenv fs k (MUnion u tag len cs) fin C). intros a Ha. symmetry. auto. }
    assert (R2 : refers camel cenv fs tag x) by (apply RB; auto; destruct len as [[]|]; now left).
    destruct (check_union _ _ _ _ _ _ _ C) as (_ & _ & CC). cbn [defaultsM] in D. apply andb_true_iff in D as [D1 D2].
    apply oneDefaultb_spec in D1. rewrite forallb_forall in D2.
    assert (X : exists w fs', goW (all (writeM camel r (callW n) cenv fin)) x cs (Some []) = Some w /\
       EncCase cenv pos cs x fs w (match len with None => tail | Some _ => [] end) fs' /\
       filled cenv fs fs' fin [MUnion u tag len cs]).
    { assert (DEC : (exists c, takes cv cs x c) \/ forall c, ~ takes cv cs x c).
      { destruct (hasDefault cs) eqn:HD; [left; now apply hasDefault_takes|].
        assert (ND0 : forall c, In c cs -> ucase_list c <> None).
        { intros c Ic Ec. clear - HD Ic Ec. unfold hasDefault in HD. induction cs as [|d cs IHc]; [destruct Ic|]. cbn [existsb] in HD.
          apply orb_false_iff in HD as [H1 H2]. destruct Ic as [->|Ic]; auto. rewrite Ec in H1. discriminate. }
        clear - ND0. assert (G : forall cs' pre, cs = pre ++ cs' -> Forall (fun p => ~ case_matches cv p x) pre -> (exists c, takes cv cs x c) \/ Forall (fun p => ~ case_matches cv p x) cs).
        { induction cs' as [|c cs' IHc]; intros pre E F; [right; now rewrite E, app_nil_r|].
          destruct (case_matches_dec r c x) as [M|M]; [left; exists c; left; eauto|].
          apply (IHc (pre ++ [c])); [now rewrite <- app_assoc|]. apply Forall_app. split; auto. }
        destruct (G cs [] eq_refl (Forall_nil _)) as [H|H]; auto. right. intros c [(pre & post & -> & M & _)|(_ & I & E)].
        - apply Forall_app in H as [_ H]. inversion H; subst. contradiction.
        - eapply ND0; eauto. }
      destruct DEC as [[c T]|NT].
      - pose proof (takes_in _ _ _ _ T) as Ic. destruct (CC _ Ic) as [_ C1]. rewrite Forall_forall in IH.
        destruct (fit_members n cenv fin (ucase_members c)) with (ctxs := ctxs) (k := k) (pos := pos) (fs := fs) (tail := match len with None => tail | Some _ => [] end) as (w & fs' & W & E & FL); auto.
        + specialize (D2 _ Ic). destruct c. exact D2.
        + intros a b Ha Hb. apply A; auto. eapply case_names; eauto.
        + eapply case_nodup; eauto.
        + intros a Ha. apply HN. eapply case_names; eauto.
        + exact (proj1 (goF_spec _ _ _ _) F c Ic T).
        + exists w, fs'. rewrite (goW_takes _ _ _ _ _ D1 T). split; auto. split; [econstructor; eauto|].
          intros g. destruct (FL g) as [G|[G N]]; auto. right. split; auto. intros nm t Eg P. inversion P as [? ? I|? ? ? ? ? y d ? I Ry Td Pd]; subst.
          * destruct I as [I|[]]. discriminate.
          * destruct I as [I|[]]. injection I as <- <- <- <-. assert (y = x) by (eapply refers_fun; eauto). subst y.
            assert (d = c) by (eapply takes_unique; eauto). subst d. eapply N; eauto.
      - exists [], fs. rewrite goW_none by auto. split; auto. split; [now constructor|]. intros g. right. split; auto.
        intros nm t Eg P. inversion P as [? ? I|? ? ? ? ? y d ? I Ry Td Pd]; subst.
        * destruct I as [I|[]]. discriminate.
        * destruct I as [I|[]]. injection I as <- <- <- <-. assert (y = x) by (eapply refers_fun; eauto). subst y. eapply NT; eauto. }
    destruct X as (w & fs' & W & EC & FL). exists w, fs'.
    assert (WE : writeM camel r (callW n) cenv fin (MUnion u tag len cs) = Some w).
    { rewrite writeM_union. apply lookupRef_spec in R. now rewrite R. }
    rewrite WE in LEN. split; auto. split; auto. destruct len as [[f|i]|].
    + econstructor; eauto. apply RB; auto. right. now left.
    + econstructor; eauto.
    + econstructor; eauto.
  - cbn [fitsM] in F. subst tail. exists [], fs. split; [reflexivity|]. split; [constructor|]. intros g. right. split; auto.
    intros nm t _ P. inversion P as [? ? I|? ? ? ? ? ? ? ? I]; subst; destruct I as [I|[]]; discriminate.
  - destruct F.
  - cbn [fitsM] in F. subst tail. exists [], fs. split; [reflexivity|]. split; [constructor|]. intros g. right. split; auto.
    intros nm t _ P. inversion P as [? ? I|? ? ? ? ? ? ? ? I]; subst; destruct I as [I|[]]; discriminate.
Qed.

Lemma fit_struct_at : forall n, G0 n -> forall s, checkStruct camel r s = true -> forall cenv fs fin tail, map fst fs = map camel (flat_map fieldNames (members_of s)) ->
  fits camel r n cenv s fin tail -> kept camel r cenv s fs fin ->
  exists w, write camel r n cenv s fin = Some w /\ EncMs cenv 0 (members_of s) fs w tail fin.
Proof.
  intros n CALL s CS cenv fs fin tail HN F [DM KP]. destruct (checked_parts camel r _ CS) as (C1 & C2 & C3). rewrite fits_eq in F. rewrite write_eq.
  destruct (fit_members n cenv fin (members_of s)) with (ctxs := scontexts s) (k := @nil (string * Z)) (pos := 0) (fs := fs) (tail := tail) as (w & fs' & W & E & FL); auto.
  - apply Forall_forall. intros m _. now apply fit_member.
  - intros a b [].
  - intros a Ha. rewrite HN. now apply in_map.
  - intros a [].
  - exists w. split; auto. replace fin with fs'; auto. apply fields_ext.
    + rewrite DM. eapply encMs_dom; eauto.
    + rewrite (encMs_dom _ _ _ _ _ _ _ _ _ _ E), HN. auto.
    + intros g. destruct (FL g) as [G|[G N]]; auto. rewrite KP; auto.
Qed.

Lemma fit_calls : forall n, G0 n.
Proof.
  induction n as [|n IH]; intros cenv nm f tl F; cbn [callF] in F; [destruct F|].
  destruct F as (s & cenv' & ES & EX & PA & KP & F).
  destruct (fit_struct_at n IH s (Hstr _ _ ES EX) cenv' (blank camel cv s) f tl) as (w & W & E); auto.
  - unfold blank. rewrite map_map. cbn [fst]. rewrite fieldNames_list, map_map. reflexivity.
  - exists w, s, cenv'. cbn [callW]. rewrite ES, (proj2 (handed_spec _ _ _) PA). auto.
Qed.

Theorem fit_struct : forall s, checkStruct camel r s = true -> forall cenv fs fin tail, map fst fs = map camel (flat_map fieldNames (members_of s)) ->
  writable camel r s cenv fin tail -> kept camel r cenv s fs fin ->
  exists w, bytesOf camel r s cenv fin = Some w /\ EncMs cenv 0 (members_of s) fs w tail fin.
Proof. intros s CS cenv fs fin tail HN. apply fit_struct_at; auto. apply fit_calls. Qed.
End Round.
