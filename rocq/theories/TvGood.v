(** What makes a partly generated vector good: its bytes encode the members
    generated so far for every value of the earlier fields and contexts that
    agrees with its constraints. *)
From Coq Require Import ZArith String List Bool Lia ZifyBool ZifyNat Permutation.
From Verif Require Import Base Ast IntervalsModel IntervalsProofs InspectModel InspectSpec InspectProofs BranchProofs RandomProofs GoLang GenModel GenCheck
  WireSpec WireProofs WireFacts TvModel TvConstraints TvHeap TvFacts TvClass.
Import ListNotations.
Open Scope string_scope.
Open Scope list_scope.
Open Scope Z_scope.

Lemma memb_In : forall x l, memb x l = true <-> In x l.
Proof.
  intros x l. unfold memb. rewrite existsb_exists. split.
  - intros (y & I & E). apply String.eqb_eq in E. now subst.
  - intros I. exists x. split; auto. apply String.eqb_refl.
Qed.
Lemma disjointb_spec : forall a b, disjointb a b = true <-> forall x, In x a -> ~ In x b.
Proof.
  intros a b. unfold disjointb. rewrite forallb_forall. split; intros H x I.
  - specialize (H x I). intros J. apply memb_In in J. rewrite J in H. discriminate.
  - destruct (memb x b) eqn:M; auto. apply memb_In in M. now apply H in I.
Qed.

Section Good.
Variable camel : string -> string.
Variable r : resolver.
Variable lenient : Prop.
Variable lim : Z.
Variable gr sg : string -> bool.
Notation cv := (Constant r).
Notation sv := (Struct r).
Notation Enc := (enc camel cv sv lenient).
Notation EncN := (encN camel cv sv lenient).
Notation EncAll := (encAll camel cv sv lenient).
Notation EncM := (encM camel cv sv lenient).
Notation EncCase := (encCase camel cv sv lenient).
Notation EncMs := (encMs camel cv sv lenient).
Notation disjC := (disjC camel).

Lemma disjC_spec : forall a b, disjC a b = true <-> forall x y, In x a -> In y b -> camel x <> camel y.
Proof.
  intros a b. unfold TvClass.disjC. rewrite disjointb_spec. split.
  - intros H x y Ix Iy E. apply (H (camel x)); [now apply in_map|]. rewrite E. now apply in_map.
  - intros H z Ia Ib. apply in_map_iff in Ia as (x & <- & Ix). apply in_map_iff in Ib as (y & E & Iy). now apply (H x y).
Qed.

Section Struct.
Variable strct : struct.
Notation ctxs := (scontexts strct).

(** [x] fits the fields called [k]. *)
Definition widthOK (k : string) (x : Z) : Prop :=
  forall sz cst, In (k, TInt sz cst) (flat_map allFields (members_of strct)) -> x < 2 ^ sz /\ forall l, cst = Some l -> in_list cv l x.
(** So do all the lengths chosen for arrays. *)
Definition countsOK : Prop := forall k x, 1 <= x <= 20 -> In k (countNames (members_of strct)) -> widthOK k x.
Definition ctxWorld (cs : list string) (cenv : amap value) : Prop :=
  forall x, In x cs -> exists ty cf, alookup x cenv = Some (VStruct ty cf) /\
    forall k z, alookup k cf = Some (VInt z) -> z < two64.
Definition world (cenv fs : amap value) : Prop :=
  ctxWorld ctxs cenv /\ forall n, In n (namesMs (members_of strct)) -> In (camel n) (map fst fs).
(** The contexts have the values recorded in [c]. *)
Definition agreeG (cs : list string) (cenv : amap value) (c : cons) : Prop :=
  forall s k x, In s cs -> s <> "" -> cLookup c s k = Some x ->
    exists ty cf, alookup s cenv = Some (VStruct ty cf) /\ alookup (camel k) cf = Some (VInt x).
(** So have the fields in [Q]. *)
Definition agreeL (fs : amap value) (c : cons) (Q : string -> Prop) : Prop :=
  forall k x, cLookup c "" k = Some x -> Q k -> alookup (camel k) fs = Some (VInt x).

(** [cb]: the constraints before any of [ms] was generated. *)
Definition goodV (ms : list member) (cb c : cons) (d : bytes) : Prop :=
  blen d < lim -> (forall k x, cLookup c "" k = Some x -> cLookup cb "" k = Some x \/ widthOK k x) /\
  ((forall k x, cLookup c "" k = Some x -> widthOK k x) ->
   forall cenv fs pos tail, world cenv fs -> agreeG ctxs cenv c ->
    agreeL fs c (fun k => In k (refsMs ms) /\ ~ In k (namesMs ms)) -> (greedyMs gr ms = true -> tail = []) ->
    exists fs', EncMs cenv pos ms fs d tail fs' /\ agreeL fs' c (fun k => In k (namesMs ms))).

Definition extends (c c' : cons) : Prop := forall s k x, cLookup c s k = Some x -> cLookup c' s k = Some x.
Definition extendsG (c c' : cons) : Prop := forall s k x, s <> "" -> cLookup c s k = Some x -> cLookup c' s k = Some x.
Definition noLocals (c : cons) : Prop := forall k, cLookup c "" k = None.
Definition nonneg (c : cons) : Prop := forall s k x, cLookup c s k = Some x -> 0 <= x.
(** New entries are small, and the local ones are for names in [P]. *)
Definition grown (P : string -> Prop) (c c' : cons) : Prop :=
  extends c c' /\ forall s k x, cLookup c' s k = Some x -> cLookup c s k = Some x \/ 1 <= x <= 20 /\ (s = "" -> P k).

Definition dropM (m : member) : bool := match m with MField _ t => isStruct t | _ => false end.

(** [d] with constraints [c2] was generated for [m] under constraints [c0]. *)
Definition goodM (m : member) (c0 c2 : cons) (d : bytes) : Prop :=
  (if dropM m then extendsG c0 c2 /\ noLocals c2 else extends c0 c2) /\
  (forall k x, cLookup c2 "" k = Some x -> cLookup c0 "" k = Some x \/ In k (refsM m)) /\
  (blen d < lim ->
    (forall k x, cLookup c2 "" k = Some x -> cLookup c0 "" k = Some x \/ widthOK k x) /\
    ((forall k x, cLookup c2 "" k = Some x -> widthOK k x) ->
     forall cenv fs pos tail, world cenv fs -> agreeG ctxs cenv c2 ->
       agreeL fs c2 (fun k => In k (refsM m) /\ ~ In k (fieldNames m)) -> (greedyM gr m = true -> tail = []) ->
       exists fs', EncM cenv pos m fs d tail fs' /\ agreeL fs' c2 (fun k => In k (fieldNames m)))).

Lemma agreeG_ext : forall cs cenv c c', extendsG c c' -> agreeG cs cenv c' -> agreeG cs cenv c.
Proof. intros cs cenv c c' E A s k x I N L. apply A; auto. Qed.
Lemma extendsG_of : forall c c', extends c c' -> extendsG c c'.
Proof. intros c c' E s k x _ L. auto. Qed.
Lemma world_dom : forall cenv fs fs', map fst fs' = map fst fs -> world cenv fs -> world cenv fs'.
Proof. intros cenv fs fs' E (A & B). split; auto. rewrite E. auto. Qed.

Lemma goodV_nil : forall c, goodV [] c c [].
Proof. intros c _. split; auto. intros _ cenv fs pos tail _ _ _ _. exists fs. split; [constructor|]. intros k x _ []. Qed.

(** More entries, for other names. *)
Lemma goodV_more : forall ms cb c c' d, goodV ms cb c d -> extends c c' ->
  (forall s k x, cLookup c' s k = Some x -> cLookup c s k = Some x \/ (s = "" -> ~ In k (namesMs ms) /\ widthOK k x)) -> goodV ms cb c' d.
Proof.
  intros ms cb c c' d G EX NEW L. destruct (G L) as (W & E). split.
  - intros k x H. destruct (NEW _ _ _ H) as [H'|B]; eauto. right. now apply B.
  - intros W' cenv fs pos tail WO AG AL GR. destruct E with (cenv := cenv) (fs := fs) (pos := pos) (tail := tail) as (fs' & EN & AE); auto.
    + eapply agreeG_ext; [apply extendsG_of; eauto|auto].
    + intros k x H Q. apply AL; auto.
    + exists fs'. split; auto. intros k x H I. destruct (NEW _ _ _ H) as [H'|B]; auto. exfalso. now apply B.
Qed.
Lemma goodV_grown : forall P ms cb c c' d, goodV ms cb c d -> grown P c c' -> (forall k, P k -> ~ In k (namesMs ms)) ->
  countsOK -> (forall k, P k -> In k (countNames (members_of strct))) -> goodV ms cb c' d.
Proof.
  intros P ms cb c c' d G (EX & NEW) PN SM PC. eapply goodV_more; eauto.
  intros s k x H. destruct (NEW _ _ _ H) as [H'|(B & P')]; auto. right. intros E. split; auto.
Qed.

Lemma goodV_cons : forall m ms cb c0 c2 dm dv,
  goodM m c0 c2 dm -> goodV ms cb c0 dv ->
  disjC (fieldNames m) (namesMs ms) = true -> disjC (refsM m) (namesMs ms) = true ->
  forallb (fun k => memb k (fieldNames m) || disjC [k] (fieldNames m)) (refsMs ms) = true ->
  (greedyM gr m = true -> ms = []) ->
  (dropM m = true -> noLocals cb /\ forall k x, cLookup c0 "" k = Some x -> In k (namesMs ms)) ->
  goodV (m :: ms) cb c2 (dm ++ dv).
Proof.
  intros m ms cb c0 c2 dm dv (EX & KE & GM) GV D1 D2 D3 GR DR L. rewrite blen_app in L. pose proof (blen_nonneg dm). pose proof (blen_nonneg dv).
  destruct GM as (W2 & E2); [lia|]. destruct GV as (W1 & E1); [lia|].
  assert (EG : extendsG c0 c2) by (destruct (dropM m); [tauto|now apply extendsG_of]).
  rewrite disjC_spec in D1, D2. rewrite forallb_forall in D3.
  split; [intros k x K; destruct (W2 _ _ K); eauto|].
  intros W cenv fs pos tail WO AG AL GT.
  assert (W0 : forall k x, cLookup c0 "" k = Some x -> widthOK k x).
  { intros k x K. destruct (dropM m); [|now apply W, EX]. destruct DR as (NL & _); auto. destruct (W1 _ _ K) as [F|]; auto. rewrite NL in F. discriminate. }
  specialize (E1 W0). specialize (E2 W).
  destruct (E2 cenv fs pos (dv ++ tail) WO AG) as (fs1 & EM & AM).
  { intros k x K (I1 & I2). apply AL; auto. unfold refsMs, namesMs. cbn [flat_map]. rewrite !in_app_iff. split; auto. intros [J|J]; auto.
    now apply (D2 k k). }
  { intros G. specialize (GR G). subst ms. assert (tail = []) by (apply GT; unfold greedyMs; cbn [existsb]; now rewrite G). subst tail.
    destruct (E1 cenv fs pos []) as (q & EQ & _); auto.
    - eapply agreeG_ext; eauto.
    - intros k x _ ([] & _).
    - inversion EQ; subst. reflexivity. }
  assert (FR : forall k, (forall nm, In nm (fieldNames m) -> camel nm <> camel k) -> alookup (camel k) fs1 = alookup (camel k) fs).
  { intros k N. eapply encM_frame; eauto. intros (nm & I & E). now apply (N nm). }
  destruct (E1 cenv fs1 (pos + blen dm) tail) as (fs2 & ES & AS).
  { eapply world_dom; [eapply encM_dom; eauto|auto]. }
  { eapply agreeG_ext; eauto. }
  { intros k x K (I1 & I2). destruct (dropM m) eqn:DM.
    - exfalso. apply I2. destruct DR as (_ & DR); eauto.
    - destruct (in_dec string_dec k (fieldNames m)) as [J|J]; [apply AM; auto|].
      specialize (D3 _ I1). apply orb_true_iff in D3 as [D3|D3]; [apply memb_In in D3; contradiction|].
      rewrite disjC_spec in D3. rewrite FR by (intros nm Inm E; apply (D3 k nm); auto; now left).
      apply AL; auto. unfold refsMs, namesMs. cbn [flat_map]. rewrite !in_app_iff. split; [now right|]. intros [J'|J']; auto. }
  { intros G. apply GT. unfold greedyMs. cbn [existsb]. apply orb_true_iff. now right. }
  exists fs2. split; [econstructor; eauto|].
  intros k x K I. unfold namesMs in I. cbn [flat_map] in I. apply in_app_iff in I.
  destruct (in_dec string_dec k (namesMs ms)) as [J|J].
  - destruct (KE _ _ K) as [K0|R0]; [apply AS; auto|]. exfalso. now apply (D2 k k).
  - destruct I as [I|I]; [|contradiction]. rewrite <- (AM _ _ K I). eapply encMs_frame; eauto. intros nm Inm E. now apply (D1 k nm).
Qed.
End Struct.
End Good.
