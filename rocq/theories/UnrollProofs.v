(** The decoder of members does not depend on fields that they do not have and do not refer to;
    a fixed array is decoded as its elements one after the other. *)
From Coq Require Import ZArith String List Bool Lia ZifyBool ZifyNat.
From Verif Require Import Base Ast IntervalsModel InspectModel InspectSpec GoLang GenModel GenDecode GenCheck
  GenSim GenSimBody GenSimProg GenMono WireSpec GenTerm IndepSpec.
Import ListNotations.
Open Scope string_scope.
Open Scope list_scope.
Open Scope Z_scope.

Section Unroll.
Variable camel : string -> string.
Variable r : resolver.
Variable X : string -> Prop.     (* the fields in question, by their Go names *)

Definition agreeX (fs fs' : amap value) : Prop := forall g, ~ X g -> alookup g fs = alookup g fs'.
(** Outcomes from receivers [fs] and [fs'] that are alike but for the fields in question, which are as they were. *)
Definition like (fs fs' : amap value) (o o' : outcome (amap value * bytes)) : Prop :=
  match o, o' with
  | Ok (a, c), Ok (a', c') => c = c' /\ agreeX a a' /\ forall g, X g -> alookup g a = alookup g fs /\ alookup g a' = alookup g fs'
  | Err e, Err e' => e = e'
  | Panic e, Panic e' => e = e'
  | OutOfFuel, OutOfFuel => True
  | _, _ => False
  end.
Definition free (m : member) : Prop := (forall nm t, In (nm, t) (allFields m) -> ~ X (camel nm)) /\
  forall f, In f (usesOf m) -> rscope f = "" -> ~ X (camel (rname f)).

Lemma like_bind : forall fs fs' o o' k k', like fs fs' o o' ->
  (forall a a' c, agreeX a a' -> (forall g, X g -> alookup g a = alookup g fs /\ alookup g a' = alookup g fs') -> like a a' (k (a, c)) (k' (a', c))) ->
  like fs fs' (bind o k) (bind o' k').
Proof.
  intros fs fs' o o' k k' L K. destruct o as [[a c]|e|m|], o' as [[a' c']|e'|m'|]; cbn [like bind] in *; try contradiction; auto.
  destruct L as (-> & A & B). specialize (K a a' c' A B). destruct (k (a, c')) as [[a1 c1]| | |], (k' (a', c')) as [[a1' c1']| | |]; cbn [like] in *; auto.
  destruct K as (-> & A1 & B1). split; auto. split; auto. intros g G. destruct (B g G) as [<- <-]. auto.
Qed.
Lemma like_same : forall A fs fs' (o : outcome A) k k', (forall a, like fs fs' (k a) (k' a)) -> like fs fs' (bind o k) (bind o k').
Proof. intros A fs fs' [a| | |] k k' K; cbn; auto. Qed.
Lemma like_within : forall fs fs' k c b b', (forall c, like fs fs' (b c) (b' c)) -> like fs fs' (decWithin k c b) (decWithin k c b').
Proof.
  intros fs fs' k c b b' H. unfold decWithin. destruct (blen c <? k); [reflexivity|]. destruct (k <? 0); [reflexivity|].
  specialize (H (firstn (Z.to_nat k) c)). destruct (b _) as [[a c1]| | |], (b' _) as [[a' c1']| | |]; cbn [bind like] in *; try contradiction; auto.
  destruct H as (-> & A & B). destruct (0 <? blen c1'); cbn [like]; auto.
Qed.
Lemma like_leaving : forall fs fs' k c b b', (forall c, like fs fs' (b c) (b' c)) -> like fs fs' (decLeaving k c b) (decLeaving k c b').
Proof. intros fs fs' k c b b' H. unfold decLeaving. destruct (k <? 0); [reflexivity|]. destruct (blen c <? k); [reflexivity|]. now apply like_within. Qed.
Lemma ref_like : forall cenv fs fs' f, agreeX fs fs' -> (rscope f = "" -> ~ X (camel (rname f))) -> refVal camel fs cenv f = refVal camel fs' cenv f.
Proof. intros cenv fs fs' f A H. unfold refVal. destruct (String.eqb_spec (rscope f) "") as [E|]; auto. now rewrite (A _ (H E)). Qed.

Section Body.
Variable dcall : string -> amap value -> bytes -> outcome (value * bytes).
Variable n : nat.
Variable cenv : amap value.
Variable dat : bytes.
Notation decM := (decMember camel r dcall n cenv (blen dat)).
Notation decMs := (decMembers camel r dcall n cenv (blen dat)).

Lemma type_like : forall fs fs' t c, agreeX fs fs' -> (forall f, In f (lengthsIn t) -> rscope f = "" -> ~ X (camel (rname f))) ->
  decType camel r dcall n cenv (blen dat) fs t c = decType camel r dcall n cenv (blen dat) fs' t c.
Proof.
  intros fs fs' t c A H. destruct t as [| | | | | |b [[f|i]|]]; cbn [decType]; auto.
  rewrite (ref_like cenv fs fs' f A); auto. apply H. now left.
Qed.
Lemma set_like : forall fs fs' k v c, agreeX fs fs' -> ~ X k -> like fs fs' (Ok (assign k v fs, c)) (Ok (assign k v fs', c)).
Proof.
  intros fs fs' k v c A N. cbn [like]. split; auto. split.
  - intros g G. rewrite !alookup_assign. rewrite (A k N), (A g G). reflexivity.
  - intros g G. rewrite !alookup_assign. destruct (String.eqb_spec g k) as [->|]; [contradiction|auto].
Qed.
Lemma members_like_of : forall ms, Forall (fun m => free m -> forall fs fs' c, agreeX fs fs' -> like fs fs' (decM m fs c) (decM m fs' c)) ms ->
  Forall free ms -> forall fs fs' c, agreeX fs fs' -> like fs fs' (decMs ms fs c) (decMs ms fs' c).
Proof.
  induction ms as [|m ms IH]; intros F FR fs fs' c A; cbn [decMembers].
  - cbn [like]. auto.
  - inversion F as [|? ? F1 F2]; subst. inversion FR as [|? ? R1 R2]; subst. apply like_bind with (1 := F1 R1 fs fs' c A). intros a a' c1 A1 _. now apply IH.
Qed.
Lemma member_like : forall m, free m -> forall fs fs' c, agreeX fs fs' -> like fs fs' (decM m fs c) (decM m fs' c).
Proof.
  induction m as [nm t|u tag len cs IH| | |] using member_ind'; intros [HF HU] fs fs' c A.
  - cbn [decMember]. rewrite (type_like fs fs' t c A HU). apply like_same. intros [v c1]. apply set_like; auto. apply (HF nm t). now left.
  - rewrite !decMember_union.
    assert (B : forall c, like fs fs' (x <- refVal camel fs cenv tag ;; decPick camel r dcall n cenv dat cs x cs fs c) (x <- refVal camel fs' cenv tag ;; decPick camel r dcall n cenv dat cs x cs fs' c)).
    { intros c0. rewrite (ref_like cenv fs fs' tag A) by (apply HU; now left). apply like_same. intros x. rewrite !decPick_choice.
      destruct (choice r x cs cs) as [ms|] eqn:E; [|cbn [like]; auto]. apply choice_in in E as [l I]. rewrite Forall_forall in IH. apply members_like_of; auto; [exact (IH _ I)|].
      apply Forall_forall. intros m J. split.
      - intros nm t K. apply (HF nm t). cbn [allFields]. apply in_flat_map. exists (UCase l ms). split; auto. apply in_flat_map. eauto.
      - intros f K. apply HU. cbn [usesOf]. right. apply in_or_app. right. apply in_flat_map. exists (UCase l ms). split; auto. apply in_flat_map. eauto. }
    cbv zeta. destruct len as [[f|i]|]; cbn [decConstr].
    + rewrite (ref_like cenv fs fs' f A) by (apply HU; cbn [usesOf]; right; now left). apply like_same. intros k. now apply like_within.
    + apply like_same. intros k. now apply like_leaving.
    + apply B.
  - cbn [decMember]. destruct (0 <? blen c); cbn [like]; auto.
  - reflexivity.
  - cbn [decMember like]. auto.
Qed.
Lemma members_like : forall ms, Forall free ms -> forall fs fs' c, agreeX fs fs' -> like fs fs' (decMs ms fs c) (decMs ms fs' c).
Proof. intros ms. apply members_like_of. apply Forall_forall. intros m _. apply member_like. Qed.

(** One after the other. *)
Definition setAll (names : list string) (vs : list value) (fs : amap value) : amap value :=
  fold_left (fun fs nv => assign (camel (fst nv)) (snd nv) fs) (combine names vs) fs.
Definition element (b : type) : Prop := match b with TFixed _ _ | TVar _ _ => False | _ => True end.
Lemma unrolled : forall b names m fs c, element b -> (List.length names <= m)%nat ->
  decMs (map (fun x => MField x b) names) fs c =
  ('(vs, c1) <- decFor r dcall cenv (blen dat) m b (blen names) c ;; Ok (setAll names vs fs, c1)).
Proof.
  intros b. induction names as [|x names IH]; intros m fs c EB L.
  - destruct m; reflexivity.
  - destruct m as [|m]; [cbn in L; lia|]. cbn [map decMembers decMember decFor].
    replace (blen (x :: names) <=? 0) with false by (unfold blen; cbn [List.length]; lia).
    assert (T : forall c0, decType camel r dcall n cenv (blen dat) fs b c0 = decBase r dcall cenv (blen dat) b c0) by (intros c0; destruct b; try reflexivity; destruct EB).
    rewrite T. destruct (decBase r dcall cenv (blen dat) b c) as [[v c1]| | |]; cbn [bind]; auto.
    rewrite (IH m) by (auto; cbn in L; lia). replace (blen (x :: names) - 1) with (blen names) by (unfold blen; cbn [List.length]; lia).
    destruct (decFor r dcall cenv (blen dat) m b (blen names) c1) as [[vs c2]| | |]; cbn [bind]; auto.
Qed.
Lemma for_count : forall b m k c vs c1, 0 <= k -> decFor r dcall cenv (blen dat) m b k c = Ok (vs, c1) -> blen vs = k.
Proof.
  intros b. induction m as [|m IH]; intros k c vs c1 K H; cbn [decFor] in H; destruct (k <=? 0) eqn:E; try discriminate H.
  - injection H as <- <-. unfold blen. cbn. lia.
  - injection H as <- <-. unfold blen. cbn. lia.
  - apply bind_ok in H as ([v c2] & _ & H). apply bind_ok in H as ([vs' c3] & H & E'). injection E' as <- <-. apply IH in H; [|lia]. unfold blen in *. cbn [List.length]. lia.
Qed.
End Body.

Lemma setAll_other : forall names vs fs g, ~ In g (map camel names) -> alookup g (setAll names vs fs) = alookup g fs.
Proof.
  unfold setAll. induction names as [|x names IH]; intros [|v vs] fs g N; cbn [combine fold_left]; auto.
  rewrite IH by (intros I; apply N; now right). cbn [fst snd]. apply alookup_assign_other. intros ->. apply N. now left.
Qed.
Lemma setAll_found : forall names vs fs, NoDup (map camel names) -> List.length vs = List.length names -> (forall x, In x names -> alookup (camel x) fs <> None) ->
  Forall2 (fun x v => alookup (camel x) (setAll names vs fs) = Some v) names vs.
Proof.
  induction names as [|x names IH]; intros [|v vs] fs ND L H; cbn in L; try discriminate; constructor; cbn [map] in ND; inversion ND as [|? ? N1 N2]; subst.
  - change (setAll (x :: names) (v :: vs) fs) with (setAll names vs (assign (camel x) v fs)). rewrite setAll_other by auto.
    rewrite alookup_assign, String.eqb_refl. specialize (H x (or_introl eq_refl)). destruct (alookup (camel x) fs); congruence.
  - change (setAll (x :: names) (v :: vs) fs) with (setAll names vs (assign (camel x) v fs)). apply IH; auto.
    intros y I. rewrite alookup_assign. destruct (String.eqb (camel y) (camel x)); [specialize (H x (or_introl eq_refl)); destruct (alookup (camel x) fs); congruence|]. apply H. now right.
Qed.
End Unroll.
