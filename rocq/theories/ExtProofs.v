(** The decoder on declarations and on an extension of them. *)
From Coq Require Import ZArith String List Bool Lia ZifyBool ZifyNat.
From Verif Require Import Base Ast IntervalsModel InspectModel InspectSpec BranchProofs GoLang GenModel GenDecode GenCheck GenSim GenSimBody GenSimProg WireSpec WireProofs WireComplete WireFacts GenTerm ReachProofs SameSpec SameProofs ExtSpec.
Import ListNotations.
Open Scope string_scope.
Open Scope list_scope.
Open Scope Z_scope.

Section Gone.
Variable gone : string -> Prop.

(** How outcomes are related. *)
Definition rel {A B} (P : A -> B -> Prop) (o : outcome (A * bytes)) (o' : outcome (B * bytes)) : Prop :=
  match o with
  | Ok (a, c) => exists b, o' = Ok (b, c) /\ P a b
  | Err e => gone e /\ refusal e \/ o' = Err e
  | Panic m => m = "ill-typed" \/ o' = Panic m
  | OutOfFuel => o' = OutOfFuel
  end.
Lemma rel_bind : forall {A B A' B'} (P : A -> B -> Prop) (Q : A' -> B' -> Prop) o o' k k', rel P o o' ->
  (forall a b c, P a b -> rel Q (k (a, c)) (k' (b, c))) -> rel Q (bind o k) (bind o' k').
Proof.
  intros A B A' B' P Q o o' k k' H K. destruct o as [[a c]|e|m|]; cbn [rel bind] in *.
  - destruct H as (b & -> & H). cbn [bind]. auto.
  - destruct H as [H| ->]; cbn; auto.
  - destruct H as [H| ->]; cbn; auto.
  - subst. reflexivity.
Qed.
(** The same for computations that do not take input. *)
Definition relV {A} (o o' : outcome A) : Prop :=
  match o with Panic m => m = "ill-typed" \/ o' = Panic m | _ => o' = o end.
Lemma rel_bindV : forall {A A' B'} (Q : A' -> B' -> Prop) (o o' : outcome A) k k', relV o o' ->
  (forall a, rel Q (k a) (k' a)) -> rel Q (bind o k) (bind o' k').
Proof.
  intros A A' B' Q o o' k k' H K. destruct o as [a|e|m|]; cbn [relV] in H.
  - subst. cbn [bind]. auto.
  - subst. cbn. auto.
  - destruct H as [->| ->]; cbn; auto.
  - subst. reflexivity.
Qed.
Lemma rel_same : forall {A} (P : A -> A -> Prop) o, (forall a, P a a) -> rel P o o.
Proof. intros A P [[a c]|e|m|] H; cbn; eauto. Qed.

Lemma holds_int : forall z v, holds (VInt z) v -> v = VInt z.
Proof. intros z v H. inversion H. reflexivity. Qed.

Section Ext.
Variable camel : string -> string.
Variable r r' : resolver.
Notation cv := (Constant r).
Notation cv' := (Constant r').
Notation ExtT := (extT gone cv cv').
Notation ExtM := (extM gone cv cv').

Lemma ext_tipe : forall t t', ExtT t t' -> tipe camel r t = tipe camel r' t'.
Proof.
  induction 1 as [| | | | |b b' i i' S IH I|b b' c c' S IH I]; cbn [tipe]; auto.
  - destruct (same_integer r r' _ _ I) as (v & E & E'). rewrite E, E'. cbn [bind]. now rewrite IH.
  - now rewrite IH.
Qed.
Lemma ext_blank : forall t t', ExtT t t' -> blankOf cv t = blankOf cv' t'.
Proof.
  induction 1 as [| | | | |b b' i i' S IH I|b b' c c' S IH I]; cbn [blankOf]; auto.
  destruct I as (v & -> & ->). now rewrite IH.
Qed.
Lemma ext_int : forall sz o o' c, looser cv cv' o o' -> gone "integer constraint violated" \/ (forall x, allows cv' o' x -> allows cv o x) -> rel holds (decInt r sz o c) (decInt r' sz o' c).
Proof.
  intros sz o o' c H G. unfold decInt. destruct (blen c <? sz / 8); [right; reflexivity|].
  set (x := be (firstn (Z.to_nat (sz / 8)) c)). specialize (H x).
  destruct (match o with None => true | Some l => inList r x l end) eqn:E.
  2: { destruct G as [G|G]; [left; split; auto; left; reflexivity|]. right. specialize (G x). destruct o as [l|]; [|discriminate].
       destruct o' as [l'|]; cbn [allows] in G; [|pose proof (proj2 (inList_spec r x l) (G I)); congruence].
       destruct (inList r' x l') eqn:E'; auto. apply inList_spec in E'. pose proof (proj2 (inList_spec r x l) (G E')). congruence. }
  replace (match o' with None => true | Some l => inList r' x l end) with true; [cbn; eexists; split; [reflexivity|constructor]|].
  symmetry. destruct o' as [l'|]; auto. apply inList_spec. apply H. destruct o as [l|]; cbn; auto. now apply inList_spec.
Qed.

Section Body.
Variable dcall dcall' : string -> amap value -> bytes -> outcome (value * bytes).
Hypothesis Hcall : forall nm cenv c, known r nm -> rel holds (dcall nm cenv c) (dcall' nm cenv c).
Variable n : nat.
Variable cenv : amap value.
Variable dat : bytes.
Notation d := (blen dat).

Lemma ext_base : forall ctxs t t' c, ExtT t t' -> checkBase r ctxs t = true -> rel holds (decBase r dcall cenv d t c) (decBase r' dcall' cenv d t' c).
Proof.
  intros ctxs t t' c S C. destruct S; cbn [decBase]; try (apply rel_same; constructor; fail).
  - now apply ext_int.
  - apply Hcall. cbn in C. destruct (Struct r n0) as [s|] eqn:E; [|discriminate]. exists s. split; auto. destruct (Extern s); [discriminate|auto].
Qed.
Lemma ext_for : forall ctxs t t', ExtT t t' -> checkBase r ctxs t = true -> forall m k c, rel (Forall2 holds) (decFor r dcall cenv d m t k c) (decFor r' dcall' cenv d m t' k c).
Proof.
  intros ctxs t t' S C. induction m as [|m IH]; intros k c; cbn [decFor]; (destruct (k <=? 0); [cbn; eauto|]); [reflexivity|].
  eapply rel_bind; [now apply (ext_base ctxs)|]. intros v v' c1 H. cbn beta iota. eapply rel_bind; [apply IH|]. intros vs vs' c2 H2. cbn. eauto.
Qed.
Lemma ext_while : forall ctxs t t', ExtT t t' -> checkBase r ctxs t = true -> forall m c, rel (Forall2 holds) (decWhile r dcall cenv d m t c) (decWhile r' dcall' cenv d m t' c).
Proof.
  intros ctxs t t' S C. induction m as [|m IH]; intros c; cbn [decWhile]; (destruct (blen c <=? 0); [cbn; eauto|]); [reflexivity|].
  eapply rel_bind; [now apply (ext_base ctxs)|]. intros v v' c1 H. cbn beta iota. eapply rel_bind; [apply IH|]. intros vs vs' c2 H2. cbn. eauto.
Qed.
Lemma ext_within : forall {A B} (P : A -> B -> Prop) k c (f : bytes -> outcome (A * bytes)) (g : bytes -> outcome (B * bytes)),
  (forall c, rel P (f c) (g c)) -> rel P (decWithin k c f) (decWithin k c g).
Proof.
  intros A B P k c f g H. unfold decWithin. destruct (blen c <? k); [right; reflexivity|]. destruct (k <? 0); [right; reflexivity|].
  eapply rel_bind; [apply H|]. intros a b c1 R. cbn beta iota. destruct (0 <? blen c1); [right; reflexivity|]. cbn. eauto.
Qed.
Lemma ext_leaving : forall {A B} (P : A -> B -> Prop) k c (f : bytes -> outcome (A * bytes)) (g : bytes -> outcome (B * bytes)),
  (forall c, rel P (f c) (g c)) -> rel P (decLeaving k c f) (decLeaving k c g).
Proof.
  intros A B P k c f g H. unfold decLeaving. destruct (k <? 0); [right; reflexivity|]. destruct (blen c <? k); [right; reflexivity|]. now apply ext_within.
Qed.

Lemma ext_ref : forall fs fs' f, holdsFields fs fs' -> relV (refVal camel fs cenv f) (refVal camel fs' cenv f).
Proof.
  intros fs fs' f H. unfold refVal. destruct (String.eqb (rscope f) "").
  - unfold asInt. destruct (alookup (camel (rname f)) fs) as [v|] eqn:E; [|left; reflexivity].
    destruct (H _ _ E) as (v' & -> & HV). destruct v; try (left; reflexivity). apply holds_int in HV as ->. reflexivity.
  - match goal with |- relV ?a ?a => destruct a; cbn; auto end.
Qed.
Lemma ext_list : forall c c' o o', rel (Forall2 holds) o o' ->
  c = (fun x : list value * bytes => let '(vs, c1) := x in Ok (VList vs, c1)) -> c' = c -> rel holds (bind o c) (bind o' c').
Proof.
  intros c c' o o' H -> ->. eapply rel_bind; [exact H|]. intros a b c1 R. cbn. eexists. split; [reflexivity|]. now constructor.
Qed.
Lemma ext_type : forall ctxs k fs fs' t t' c, holdsFields fs fs' -> ExtT t t' -> checkType r ctxs k t = true ->
  rel holds (decType camel r dcall n cenv d fs t c) (decType camel r' dcall' n cenv d fs' t' c).
Proof.
  intros ctxs k fs fs' t t' c HF S C. destruct S as [sz o o' L G| | | |nm|b b' i i' S I|b b' o o' S L]; cbn [decType];
    try (eapply (ext_base ctxs); [constructor; auto|exact C]; fail).
  - cbn [checkType] in C. apply andb_true_iff in C as [C _]. destruct (same_integer r r' _ _ I) as (v & E & E'). rewrite E, E'. cbn [bind].
    eapply ext_list; [now apply (ext_for ctxs)| |]; reflexivity.
  - destruct o as [[f|i]|], o' as [[f'|i']|]; cbn [sameLengths sameLength checkType] in *; try contradiction.
    + subst f'. apply andb_true_iff in C as [C _]. apply rel_bindV; [now apply ext_ref|]. intros x. rewrite (ext_tipe b b' S).
      apply rel_bindV; [destruct (tipe camel r' b'); cbn; auto|]. intros g. match goal with |- context [if ?b then _ else _] => destruct b end; [right; reflexivity|].
      eapply ext_list; [now apply (ext_for ctxs)| |]; reflexivity.
    + apply andb_true_iff in C as [C _]. destruct (same_integer r r' _ _ L) as (v & E & E'). rewrite E, E'. cbn [bind].
      apply ext_leaving. intros c0. eapply ext_list; [now apply (ext_while ctxs)| |]; reflexivity.
    + eapply ext_list; [now apply (ext_while ctxs)| |]; reflexivity.
Qed.

Lemma holds_assign : forall fs fs' k v v', holdsFields fs fs' -> holds v v' -> holdsFields (assign k v fs) (assign k v' fs').
Proof.
  intros fs fs' k v v' H HV x u E. destruct (string_dec x k) as [->|N].
  - destruct (alookup k fs) as [w|] eqn:E1.
    + rewrite (alookup_assign_same k v w fs E1) in E. injection E as <-. destruct (H _ _ E1) as (w' & E2 & _). exists v'. split; auto. now apply (alookup_assign_same k v' w').
    + exfalso. rewrite alookup_assign in E. rewrite String.eqb_refl, E1 in E. discriminate.
  - rewrite alookup_assign_other in * by auto. auto.
Qed.

Lemma ext_members0 : forall ctxs ms, Forall (fun m => forall k m', ExtM m m' -> checkMember r ctxs k m = true -> forall fs fs' c, holdsFields fs fs' ->
    rel holdsFields (decMember camel r dcall n cenv d m fs c) (decMember camel r' dcall' n cenv d m' fs' c)) ms ->
  forall k ms', Forall2 ExtM ms ms' -> checkMembers r ctxs k ms = true -> forall fs fs' c, holdsFields fs fs' ->
    rel holdsFields (decMembers camel r dcall n cenv d ms fs c) (decMembers camel r' dcall' n cenv d ms' fs' c).
Proof.
  intros ctxs. induction ms as [|m ms IH]; intros F k ms' S C fs fs' c HF; inversion S as [|? m' ? ms1 SM S1]; subst; [cbn; eauto|].
  cbn [decMembers checkMembers] in *. apply andb_true_iff in C as [C1 C2]. eapply rel_bind; [eapply (Forall_inv F); eauto|].
  intros a b c1 H. cbn beta iota. eapply IH; eauto. exact (Forall_inv_tail F).
Qed.
Lemma ext_member : forall ctxs m k m', ExtM m m' -> checkMember r ctxs k m = true -> forall fs fs' c, holdsFields fs fs' ->
    rel holdsFields (decMember camel r dcall n cenv d m fs c) (decMember camel r' dcall' n cenv d m' fs' c).
Proof.
  intros ctxs. induction m as [nm t|u tag len cs IH| | |] using member_ind'; intros k m' S C fs fs' c HF; inversion S as [? ? t' ST|? u' ? ? len' ? cs' SL TK NT| | |]; subst.
  - cbn [decMember]. eapply rel_bind; [eapply ext_type; eauto|]. intros v v' c1 H. cbn. eexists. split; [reflexivity|]. now apply holds_assign.
  - rewrite !decMember_union. cbn zeta. rewrite Forall_forall in IH. destruct (check_union _ _ _ _ _ _ _ C) as (_ & _ & CC).
    assert (B : forall c, rel holdsFields (x <- refVal camel fs cenv tag ;; decPick camel r dcall n cenv dat cs x cs fs c)
                          (x <- refVal camel fs' cenv tag ;; decPick camel r' dcall' n cenv dat cs' x cs' fs' c)).
    { intros c0. apply rel_bindV; [now apply ext_ref|]. intros x.
      destruct (pick_spec camel r dcall n cenv dat cs x fs c0 cs [] eq_refl (Forall_nil _)) as [(cs1 & T & E)|[N E]].
      - rewrite E. destruct (TK x cs1 T) as [(GO & rest & RF)|((c1 & T1) & X)].
        + rewrite RF. cbn. left. split; auto. right. reflexivity.
        + destruct (pick_spec camel r' dcall' n cenv dat cs' x fs' c0 cs' [] eq_refl (Forall_nil _)) as [(c2 & T2 & E2)|[N2 _]]; [|exfalso; exact (N2 _ T1)].
          rewrite E2. pose proof (takes_in r cs x cs1 T) as I. destruct (CC _ I) as [_ CM]. eapply ext_members0; eauto.
      - rewrite E. rewrite (pick_none camel r' dcall' n cenv dat cs' x fs' c0 (NT x N)). cbn. eauto. }
    destruct len as [[f|i]|], len' as [[f'|i']|]; cbn [sameLengths sameLength decConstr] in *; try contradiction.
    + subst f'. apply rel_bindV; [now apply ext_ref|]. intros x. now apply ext_within.
    + destruct (same_integer r r' _ _ SL) as (v & E & E'). rewrite E, E'. cbn [bind]. now apply ext_leaving.
    + apply B.
  - cbn [decMember]. destruct (0 <? blen c); [right; reflexivity|]. cbn. eauto.
  - cbn. auto.
  - cbn. exists fs'. auto.
Qed.
Lemma ext_members : forall ctxs ms k ms', Forall2 ExtM ms ms' -> checkMembers r ctxs k ms = true -> forall fs fs' c, holdsFields fs fs' ->
    rel holdsFields (decMembers camel r dcall n cenv d ms fs c) (decMembers camel r' dcall' n cenv d ms' fs' c).
Proof. intros. eapply ext_members0; eauto. apply Forall_forall. intros. eapply ext_member; eauto. Qed.
End Body.

(** New structs. *)
Lemma ext_new : forall s s', extStruct gone cv cv' s s' -> checkStruct camel r' s' = true -> holdsFields (blank camel cv s) (blank camel cv' s').
Proof.
  intros s s' (_ & _ & _ & _ & K) CS k v E. apply alookup_some_in in E. unfold blank in E. apply in_map_iff in E as ([nm t] & E & I). cbn [fst snd] in E. injection E as <- <-.
  destruct (K nm t I) as (t' & I' & X). exists (blankOf cv' t'). split; [|rewrite (ext_blank t t' X); constructor].
  apply alookup_in.
  - destruct (checked_parts camel r' s' CS) as (_ & _ & ND). unfold blank. rewrite map_map. cbn [fst]. rewrite fieldNames_list, map_map in ND. exact ND.
  - unfold blank. apply in_map_iff. exists (nm, t'). auto.
Qed.

Hypothesis Hstr : forall nm s, Struct r nm = Some s -> Extern s = false ->
  checkStruct camel r s = true /\ exists s', Struct r' nm = Some s' /\ checkStruct camel r' s' = true /\ extStruct gone cv cv' s s'.
Lemma ext_call : forall m nm cenv c, known r nm -> rel holds (decCall camel r m nm cenv c) (decCall camel r' m nm cenv c).
Proof.
  induction m as [|m IH]; intros nm cenv c (s & E & X); destruct (Hstr _ _ E X) as (CS & s' & E' & CS' & SS); cbn [decCall]; rewrite E, E';
    destruct (structDecl_ok camel r s CS) as (ds & DS); destruct (structDecl_ok camel r' s' CS') as (ds' & DS'); rewrite DS, DS'; cbn [bind];
    pose proof SS as (_ & SC & _ & F & _); rewrite SC.
  - apply rel_bindV; [destruct (ctxArgs cenv (scontexts s')); cbn; auto|]. intros args. reflexivity.
  - apply rel_bindV; [destruct (ctxArgs cenv (scontexts s')); cbn; auto|]. intros args.
    destruct (checked_parts _ _ _ CS) as (C1 & _). eapply rel_bind.
    + eapply (ext_members (decCall camel r m) (decCall camel r' m)); eauto. rewrite (zeros_blank camel r s ds DS), (zeros_blank camel r' s' ds' DS'). now apply ext_new.
    + intros a b c1 H. cbn. eexists. split; [reflexivity|]. now constructor.
Qed.
Theorem ext_struct : forall m s s' fs fs' cenv c, checkStruct camel r s = true -> extStruct gone cv cv' s s' -> holdsFields fs fs' ->
  rel holdsFields (decStruct camel r m s fs cenv c) (decStruct camel r' m s' fs' cenv c).
Proof.
  intros [|m] s s' fs fs' cenv c CS (_ & _ & _ & F & _) HF; [reflexivity|]. cbn [decStruct]. destruct (checked_parts _ _ _ CS) as (C1 & _).
  eapply ext_members; eauto. intros. now apply ext_call.
Qed.
End Ext.

(** Unions with cases added. *)
Section Cases.
Variable cv cv' : string -> option Z.
Variable may : Z -> Prop.
Variable x : Z.
Hypothesis NX : ~ may x.
Definition firstMatch (cv : string -> option Z) (cs : list ucase) (c : ucase) : Prop :=
  exists pre post, cs = pre ++ c :: post /\ case_matches cv c x /\ Forall (fun p => ~ case_matches cv p x) pre.
Definition follows (c c' : ucase) : Prop := gone "disallowed case" /\ refuses (ucase_members c) \/ Forall2 (extM gone cv cv') (ucase_members c) (ucase_members c').
Lemma same_matches : forall c c', sameLists cv cv' (ucase_list c) (ucase_list c') -> case_matches cv c x <-> case_matches cv' c' x.
Proof.
  intros c c' S. unfold case_matches. destruct (ucase_list c) as [l|], (ucase_list c') as [l'|]; cbn [sameLists] in S; try contradiction.
  - split; intros (l0 & E & H); injection E as <-; eexists; (split; [reflexivity|]); apply S; auto.
  - split; intros (l0 & E & H); discriminate.
Qed.
Lemma first_cons : forall cv c cs d, firstMatch cv (c :: cs) d <-> (c = d /\ case_matches cv c x) \/ (~ case_matches cv c x /\ firstMatch cv cs d).
Proof.
  intros cv0 c cs d. split.
  - intros (pre & post & E & M & N). destruct pre as [|q pre]; cbn [app] in E; injection E as -> E; [left; auto|]. right. split; [exact (Forall_inv N)|].
    exists pre, post. split; auto. split; auto. exact (Forall_inv_tail N).
  - intros [[-> M]|[M (pre & post & -> & M' & N)]]; [exists [], cs; auto|]. exists (c :: pre), post. split; [reflexivity|]. split; auto.
Qed.
Lemma new_matches : forall l ms, (forall y, in_list cv' l y -> may y) -> ~ case_matches cv' (UCase (Some l) ms) x.
Proof. intros l ms H (l' & E & I). injection E as <-. auto. Qed.
Lemma cases_first : forall cs cs', extCases gone cv cv' may cs cs' -> forall c', firstMatch cv' cs' c' -> exists c, firstMatch cv cs c /\ follows c c'.
Proof.
  induction 1 as [|c c' cs cs' S F E IH|l ms cs cs' N E IH]; intros d' H.
  - destruct H as (pre & post & X & _). destruct pre; discriminate.
  - apply first_cons in H as [[-> M]|[M H]].
    + exists c. split; auto. apply first_cons. left. split; auto. now apply (same_matches c d').
    + destruct (IH _ H) as (d & H1 & H2). exists d. split; auto. apply first_cons. right. split; auto. intros M'. apply M. now apply (same_matches c c').
  - apply first_cons in H as [[_ M]|[_ H]]; auto. exfalso. exact (new_matches _ _ N M).
Qed.
Lemma cases_first' : forall cs cs', extCases gone cv cv' may cs cs' -> forall c, firstMatch cv cs c -> exists c', firstMatch cv' cs' c'.
Proof.
  induction 1 as [|c c' cs cs' S F E IH|l ms cs cs' N E IH]; intros d H.
  - destruct H as (pre & post & X & _). destruct pre; discriminate.
  - apply first_cons in H as [[-> M]|[M H]].
    + exists c'. apply first_cons. left. split; auto. now apply (same_matches d c').
    + destruct (IH _ H) as (d' & H1). exists d'. apply first_cons. right. split; auto. intros M'. apply M. now apply (same_matches c c').
  - destruct (IH _ H) as (d' & H1). exists d'. apply first_cons. right. split; auto. now apply new_matches.
Qed.
Lemma cases_none : forall cs cs', extCases gone cv cv' may cs cs' -> Forall (fun q => ~ case_matches cv q x) cs <-> Forall (fun q => ~ case_matches cv' q x) cs'.
Proof.
  induction 1 as [|c c' cs cs' S F E IH|l ms cs cs' N E IH]; [split; constructor| |].
  - pose proof (same_matches c c' S). split; intros H1; inversion H1; subst; constructor; tauto.
  - rewrite IH. split; intros H1; [constructor; auto; now apply new_matches|]. exact (Forall_inv_tail H1).
Qed.
Lemma cases_default : forall cs cs', extCases gone cv cv' may cs cs' -> forall c', In c' cs' -> ucase_list c' = None -> exists c, In c cs /\ ucase_list c = None /\ follows c c'.
Proof.
  induction 1 as [|c c' cs cs' S F E IH|l ms cs cs' N E IH]; intros d' I L; [destruct I| |].
  - destruct I as [<-|I].
    + exists c. split; [now left|]. split; auto. rewrite L in S. destruct (ucase_list c); [contradiction|auto].
    + destruct (IH _ I L) as (d & I1 & H). exists d. split; [now right|auto].
  - destruct I as [<-|I]; [discriminate|auto].
Qed.
Lemma cases_default' : forall cs cs', extCases gone cv cv' may cs cs' -> forall c, In c cs -> ucase_list c = None -> exists c', In c' cs' /\ ucase_list c' = None.
Proof.
  induction 1 as [|c c' cs cs' S F E IH|l ms cs cs' N E IH]; intros d I L; [destruct I| |].
  - destruct I as [<-|I].
    + exists c'. split; [now left|]. rewrite L in S. destruct (ucase_list c'); [contradiction|auto].
    + destruct (IH _ I L) as (d' & I1 & H). exists d'. split; [now right|auto].
  - destruct (IH _ I L) as (d' & I1 & H). exists d'. split; [now right|auto].
Qed.
Lemma cases_takes : forall cs cs', extCases gone cv cv' may cs cs' -> forall c', takes cv' cs' x c' -> exists c, takes cv cs x c /\ follows c c'.
Proof.
  intros cs cs' E c' [T|(N & I & L)].
  - destruct (cases_first _ _ E c' T) as (c & T1 & H). exists c. split; auto. now left.
  - destruct (cases_default _ _ E c' I L) as (c & I1 & L1 & H). exists c. split; auto. right. split; auto. now apply (cases_none cs cs').
Qed.
Lemma cases_takes' : forall cs cs', extCases gone cv cv' may cs cs' -> forall c, takes cv cs x c -> exists c', takes cv' cs' x c'.
Proof.
  intros cs cs' E c [T|(N & I & L)].
  - destruct (cases_first' _ _ E c T) as (c' & T1). exists c'. now left.
  - destruct (cases_default' _ _ E c I L) as (c' & I1 & L1). exists c'. right. split; auto. now apply (cases_none cs cs').
Qed.
End Cases.
Lemma refused_dec : forall r cs x, one_default cs -> refused (Constant r) cs x \/ ~ refused (Constant r) cs x.
Proof.
  intros r cs x OD. destruct (pick_spec (fun s => s) r (fun _ _ _ => OutOfFuel) 0 [] [] cs x [] [] cs [] eq_refl (Forall_nil _)) as [(c & T & _)|[N _]].
  - destruct c as [l [|m ms]].
    + right. intros (c0 & T0 & rest & R). rewrite (takes_unique _ _ _ _ _ OD T0 T) in R. discriminate.
    + destruct m; try (right; intros (c0 & T0 & rest & R); rewrite (takes_unique _ _ _ _ _ OD T0 T) in R; discriminate).
      left. exists (UCase l (MFail :: ms)). split; auto. now exists ms.
  - right. intros (c & T & _). exact (N _ T).
Qed.
Lemma cases_union : forall r r' u u' tag len len' cs cs', gone "disallowed case" -> sameLengths (Constant r) (Constant r') len len' -> one_default cs ->
  extCases gone (Constant r) (Constant r') (refused (Constant r) cs) cs cs' -> extM gone (Constant r) (Constant r') (MUnion u tag len cs) (MUnion u' tag len' cs').
Proof.
  intros r r' u u' tag len len' cs cs' GO SL OD E. set (cv := Constant r) in *. set (cv' := Constant r') in *. constructor; auto.
  - intros x c T. destruct (refused_dec r cs x OD) as [(d & T1 & R)|N].
    + left. split; auto. now rewrite (takes_unique _ _ _ _ _ OD T T1).
    + right. split; [exact (cases_takes' cv cv' _ x N cs cs' E c T)|]. intros c' T'. destruct (cases_takes cv cv' _ x N cs cs' E c' T') as (c0 & T0 & F).
      rewrite (takes_unique _ _ _ _ _ OD T T0) in *. destruct F as [[_ F]|F]; auto. exfalso. apply N. exists c0. auto.
  - intros x NT c' T'. destruct (refused_dec r cs x OD) as [(d & T1 & _)|N]; [exact (NT _ T1)|].
    destruct (cases_takes cv cv' _ x N cs cs' E c' T') as (c0 & T0 & F). exact (NT _ T0).
Qed.
End Gone.
