(** The decoder of newer declarations and that of older ones. *)
From Coq Require Import ZArith String List Bool Lia ZifyBool ZifyNat.
From Verif Require Import Base Ast IntervalsModel InspectModel InspectSpec BranchProofs GoLang GenModel GenDecode GenCheck GenSim GenSimBody GenSimProg WireSpec WireProofs WireComplete WireFacts GenTerm ReachProofs SameSpec SameProofs ExtSpec ExtProofs FwdSpec.
Import ListNotations.
Open Scope string_scope.
Open Scope list_scope.
Open Scope Z_scope.

Definition suffix (c c1 : bytes) : Prop := exists w, c = w ++ c1.
Lemma suffix_refl : forall c, suffix c c.
Proof. intros c. now exists []. Qed.
Lemma suffix_nil : forall c, suffix c [].
Proof. intros c. exists c. now rewrite app_nil_r. Qed.
Lemma suffix_skipn : forall n c, suffix c (skipn n c).
Proof. intros n c. exists (firstn n c). now rewrite firstn_skipn. Qed.
Lemma suffix_trans : forall a b c, suffix a b -> suffix b c -> suffix a c.
Proof. intros a b c (w & ->) (v & ->). exists (w ++ v). now rewrite app_assoc. Qed.

(** What a decoder leaves: the end of its input. *)
Definition leaves {A} (f : bytes -> outcome (A * bytes)) : Prop := forall c a c1, f c = Ok (a, c1) -> suffix c c1.
Lemma bind_ok : forall {A B} (o : outcome A) (k : A -> outcome B) b, bind o k = Ok b -> exists a, o = Ok a /\ k a = Ok b.
Proof. intros A B [a|e|m|] k b H; cbn in H; try discriminate. eauto. Qed.

Section Leaves.
Variable camel : string -> string.
Variable r : resolver.
Section Body.
Variable dcall : string -> amap value -> bytes -> outcome (value * bytes).
Hypothesis Hcall : forall nm cenv, leaves (dcall nm cenv).
Variable n : nat.
Variable cenv : amap value.
Variable dat : bytes.
Notation d := (blen dat).
Lemma leaves_int : forall sz o, leaves (decInt r sz o).
Proof.
  intros sz o c a c1 H. unfold decInt in H. destruct (blen c <? sz / 8); [discriminate|]. match type of H with (if ?b then _ else _) = _ => destruct b end; [|discriminate].
  injection H as <- <-. apply suffix_skipn.
Qed.
Lemma leaves_base : forall t, leaves (decBase r dcall cenv d t).
Proof.
  intros t c a c1 H. destruct t; cbn [decBase] in H; try discriminate; try (eapply leaves_int; exact H); try (eapply Hcall; exact H).
  - injection H as <- <-. apply suffix_refl.
  - unfold decNul in H. destruct (indexByte c 0 0 <? 0); [discriminate|]. match type of H with (if ?b then _ else _) = _ => destruct b end; [discriminate|].
    injection H as <- <-. apply suffix_skipn.
Qed.
Lemma leaves_for : forall m t k, leaves (decFor r dcall cenv d m t k).
Proof.
  induction m as [|m IH]; intros t k c a c1 H; cbn [decFor] in H; (destruct (k <=? 0); [injection H as <- <-; apply suffix_refl|]); [discriminate|].
  apply bind_ok in H as ([v c2] & H1 & H). apply bind_ok in H as ([vs c3] & H2 & H). injection H as <- <-. eapply suffix_trans; [eapply leaves_base; eauto|eapply IH; eauto].
Qed.
Lemma leaves_while : forall m t, leaves (decWhile r dcall cenv d m t).
Proof.
  induction m as [|m IH]; intros t c a c1 H; cbn [decWhile] in H; (destruct (blen c <=? 0); [injection H as <- <-; apply suffix_refl|]); [discriminate|].
  apply bind_ok in H as ([v c2] & H1 & H). apply bind_ok in H as ([vs c3] & H2 & H). injection H as <- <-. eapply suffix_trans; [eapply leaves_base; eauto|eapply IH; eauto].
Qed.
Lemma leaves_within : forall {A} k (f : bytes -> outcome (A * bytes)), leaves (fun c => decWithin k c f).
Proof.
  intros A k f c a c1 H. unfold decWithin in H. destruct (blen c <? k); [discriminate|]. destruct (k <? 0); [discriminate|].
  apply bind_ok in H as ([v c2] & H1 & H). destruct (0 <? blen c2); [discriminate|]. injection H as <- <-. apply suffix_skipn.
Qed.
Lemma leaves_leaving : forall {A} k (f : bytes -> outcome (A * bytes)), leaves (fun c => decLeaving k c f).
Proof.
  intros A k f c a c1 H. unfold decLeaving in H. destruct (k <? 0); [discriminate|]. destruct (blen c <? k); [discriminate|]. exact (leaves_within _ _ _ _ _ H).
Qed.
Lemma leaves_type : forall fs t, leaves (decType camel r dcall n cenv d fs t).
Proof.
  intros fs t c a c1 H. destruct t as [| | | | |b i|b [[f|i]|]]; cbn [decType] in H; try (eapply leaves_base; exact H).
  - apply bind_ok in H as (k & _ & H). apply bind_ok in H as ([vs c2] & H & E). injection E as <- <-. eapply leaves_for; exact H.
  - apply bind_ok in H as (x & _ & H). apply bind_ok in H as (g & _ & H). match type of H with (if ?b then _ else _) = _ => destruct b end; [discriminate|].
    apply bind_ok in H as ([vs c2] & H & E). injection E as <- <-. eapply leaves_for; exact H.
  - apply bind_ok in H as (k & _ & H). exact (leaves_leaving _ _ _ _ _ H).
  - apply bind_ok in H as ([vs c2] & H & E). injection E as <- <-. eapply leaves_while; exact H.
Qed.

(** A member sets its own fields only. *)
Definition apartFrom (names : list string) (fs fs1 : amap value) : Prop := forall k, ~ In k (map camel names) -> alookup k fs1 = alookup k fs.
Definition tame (names : list string) (f : amap value -> bytes -> outcome (amap value * bytes)) : Prop :=
  forall fs c fs1 c1, f fs c = Ok (fs1, c1) -> suffix c c1 /\ apartFrom names fs fs1.
Lemma apart_incl : forall l l' fs fs1, apartFrom l fs fs1 -> incl l l' -> apartFrom l' fs fs1.
Proof. intros l l' fs fs1 H I k N. apply H. intros J. apply N. apply in_map_iff in J as (x & E & J). apply in_map_iff. eauto. Qed.
Lemma tame_members0 : forall ms, Forall (fun m => tame (map fst (allFields m)) (decMember camel r dcall n cenv d m)) ms -> tame (namesOf ms) (decMembers camel r dcall n cenv d ms).
Proof.
  induction ms as [|m ms IH]; intros F fs c fs1 c1 H; cbn [decMembers] in H.
  - injection H as <- <-. split; [apply suffix_refl|]. intros k _. reflexivity.
  - apply bind_ok in H as ([fs2 c2] & H1 & H2). destruct (Forall_inv F _ _ _ _ H1) as [S1 A1]. destruct (IH (Forall_inv_tail F) _ _ _ _ H2) as [S2 A2].
    split; [eapply suffix_trans; eauto|]. intros k N. unfold namesOf in N. cbn [flat_map] in N. rewrite !map_app in N. rewrite in_app_iff in N.
    rewrite A2, A1; auto.
Qed.
Lemma tame_member : forall m, tame (map fst (allFields m)) (decMember camel r dcall n cenv d m).
Proof.
  induction m as [nm t|u tag len cs IH| | |] using member_ind'; intros fs c fs1 c1 H.
  - cbn [decMember] in H. apply bind_ok in H as ([v c2] & H & E). injection E as <- <-. split; [eapply leaves_type; exact H|].
    intros k N. apply alookup_assign_other. intros ->. apply N. now left.
  - rewrite decMember_union in H. cbn zeta in H. rewrite Forall_forall in IH.
    assert (B : forall c a c1, (x <- refVal camel fs cenv tag ;; decPick camel r dcall n cenv dat cs x cs fs c) = Ok (a, c1) -> suffix c c1 /\ apartFrom (map fst (allFields (MUnion u tag len cs))) fs a).
    { intros c0 a c2 E. apply bind_ok in E as (x & _ & E).
      destruct (pick_spec camel r dcall n cenv dat cs x fs c0 cs [] eq_refl (Forall_nil _)) as [(cs1 & T & E1)|[_ E1]]; rewrite E1 in E.
      - pose proof (takes_in r cs x cs1 T) as I. destruct (tame_members0 (ucase_members cs1) (IH _ I) _ _ _ _ E) as [S A]. split; auto.
        eapply apart_incl; [exact A|]. intros y Y. unfold namesOf in Y. apply in_map_iff in Y as (q & <- & Y). apply in_map_iff. exists q. split; auto. cbn [allFields]. apply in_flat_map. exists cs1.
        split; auto. destruct cs1; exact Y.
      - injection E as <- <-. split; [apply suffix_refl|]. intros k _. reflexivity. }
    assert (W : forall k c1 a, decWithin k c (fun c => x <- refVal camel fs cenv tag ;; decPick camel r dcall n cenv dat cs x cs fs c) = Ok (a, c1) -> suffix c c1 /\ apartFrom (map fst (allFields (MUnion u tag len cs))) fs a).
    { intros k c2 a E. split; [exact (leaves_within _ _ _ _ _ E)|]. unfold decWithin in E. destruct (blen c <? k); [discriminate|]. destruct (k <? 0); [discriminate|].
      apply bind_ok in E as ([v c3] & H1 & E). destruct (0 <? blen c3); [discriminate|]. injection E as <- <-. now apply (B _ _ _ H1). }
    destruct len as [[f|i]|]; cbn [decConstr] in H.
    + apply bind_ok in H as (k & _ & H). eapply W; exact H.
    + apply bind_ok in H as (k & _ & H). unfold decLeaving in H. destruct (k <? 0); [discriminate|]. destruct (blen c <? k); [discriminate|]. eapply W; exact H.
    + eapply B; exact H.
  - cbn [decMember] in H. destruct (0 <? blen c); [discriminate|]. injection H as <- <-. split; [apply suffix_refl|]. intros k _. reflexivity.
  - discriminate.
  - injection H as <- <-. split; [apply suffix_nil|]. intros k _. reflexivity.
Qed.
Lemma tame_members : forall ms, tame (namesOf ms) (decMembers camel r dcall n cenv d ms).
Proof. intros ms. apply tame_members0. apply Forall_forall. intros m _. apply tame_member. Qed.
Lemma members_app : forall ms ms' fs c, decMembers camel r dcall n cenv d (ms ++ ms') fs c =
  ('(fs1, c1) <- decMembers camel r dcall n cenv d ms fs c ;; decMembers camel r dcall n cenv d ms' fs1 c1).
Proof.
  induction ms as [|m ms IH]; intros ms' fs c; cbn [app decMembers bind]; auto.
  destruct (decMember camel r dcall n cenv d m fs c) as [[fs1 c1]|e|x|]; cbn [bind]; auto.
Qed.
End Body.
Lemma leaves_call : forall m nm cenv, leaves (decCall camel r m nm cenv).
Proof.
  induction m as [|m IH]; intros nm cenv c a c1 H; cbn [decCall] in H; (destruct (Struct r nm) as [s|]; [|discriminate]); apply bind_ok in H as (ds & _ & H); apply bind_ok in H as (args & _ & H); [discriminate|].
  apply bind_ok in H as ([fs c2] & H & E). injection E as <- <-. destruct (tame_members (decCall camel r m) IH _ _ _ _ _ _ _ _ H). auto.
Qed.
End Leaves.

(** What the newer one accepts the older one accepts (that it is not stuck is
    known otherwise). *)
Definition isStuck {A} (o : outcome A) : Prop := o = Panic "ill-typed".
Definition accepts {A B} (R : bytes -> bytes -> Prop) (P : A -> B -> Prop) (o : outcome (A * bytes)) (o' : outcome (B * bytes)) : Prop :=
  forall b c', o' = Ok (b, c') -> isStuck o \/ exists a c, o = Ok (a, c) /\ P a b /\ R c c'.
Definition toEnd (closed : bool) (c c' : bytes) : Prop := if closed then c' = [] -> c = [] else c = c'.
Lemma toEnd_eq : forall closed c, toEnd closed c c.
Proof. intros [|] c; cbn; auto. Qed.
Lemma acc_bind : forall {A B A' B'} R (P : A -> B -> Prop) (Q : A' -> B' -> Prop) o o' k k', accepts eq P o o' ->
  (forall a b c, P a b -> accepts R Q (k (a, c)) (k' (b, c))) -> accepts R Q (bind o k) (bind o' k').
Proof.
  intros A B A' B' R P Q o o' k k' H K v c' E. apply bind_ok in E as ([b c1] & E1 & E2).
  destruct (H _ _ E1) as [->|(a & c2 & -> & HP & ->)]; [left; reflexivity|]. cbn [bind]. eapply K; eauto.
Qed.
Lemma acc_bindV : forall {A A' B'} R (Q : A' -> B' -> Prop) (o o' : outcome A) k k', (forall a, o' = Ok a -> isStuck o \/ o = Ok a) ->
  (forall a, accepts R Q (k a) (k' a)) -> accepts R Q (bind o k) (bind o' k').
Proof. intros A A' B' R Q o o' k k' H K v c' E. apply bind_ok in E as (a & E1 & E2). destruct (H _ E1) as [->| ->]; [left; reflexivity|]. cbn [bind]. eapply K; eauto. Qed.
Lemma acc_same : forall {A} (R : bytes -> bytes -> Prop) (P : A -> A -> Prop) o, (forall a, P a a) -> (forall c, R c c) -> accepts R P o o.
Proof. intros A R P o HP HR b c E. right. exists b, c. auto. Qed.
Lemma acc_err : forall {A B} R (P : A -> B -> Prop) o e, accepts R P o (Err e).
Proof. intros A B R P o e b c E. discriminate. Qed.
Lemma acc_panic : forall {A B} R (P : A -> B -> Prop) o e, accepts R P o (Panic e).
Proof. intros A B R P o e b c E. discriminate. Qed.
Lemma acc_fuel : forall {A B} R (P : A -> B -> Prop) o, accepts R P o OutOfFuel.
Proof. intros A B R P o b c E. discriminate. Qed.
Lemma acc_ok : forall {A B} (R : bytes -> bytes -> Prop) (P : A -> B -> Prop) a b c c', P a b -> R c c' -> accepts R P (Ok (a, c)) (Ok (b, c')).
Proof. intros A B R P a b c c' HP HR b0 c0 E. injection E as <- <-. right. eauto. Qed.
Lemma acc_weak : forall {A B} (R R1 : bytes -> bytes -> Prop) (P : A -> B -> Prop) o o', accepts R P o o' -> (forall c c', R c c' -> R1 c c') -> accepts R1 P o o'.
Proof. intros A B R R1 P o o' H W b c' E. destruct (H _ _ E) as [S|(a & c & E1 & HP & HR)]; [now left|]. right. exists a, c. auto. Qed.

Section Older.
Variable camel : string -> string.
Variable r r' : resolver.
Notation cv := (Constant r).
Notation cv' := (Constant r').
Variable used : string -> Prop.
Notation OlderT := (olderT cv cv' used).

Lemma older_tipe : forall t t', OlderT t t' -> tipe camel r t = tipe camel r' t'.
Proof.
  induction 1 as [| | | | |b b' i i' S IH I|b b' c c' S IH I]; cbn [tipe]; auto.
  - destruct (same_integer r r' _ _ I) as (v & E & E'). rewrite E, E'. cbn [bind]. now rewrite IH.
  - now rewrite IH.
Qed.
Lemma older_blank : forall t t', OlderT t t' -> blankOf cv t = blankOf cv' t'.
Proof.
  induction 1 as [| | | | |b b' i i' S IH I|b b' c c' S IH I]; cbn [blankOf]; auto. destruct I as (v & -> & ->). now rewrite IH.
Qed.
Lemma older_int : forall sz o o' c, looser cv' cv o' o -> accepts eq holds (decInt r sz o c) (decInt r' sz o' c).
Proof.
  intros sz o o' c H. unfold decInt. destruct (blen c <? sz / 8); [apply acc_err|].
  set (x := be (firstn (Z.to_nat (sz / 8)) c)). specialize (H x).
  destruct (match o' with None => true | Some l => inList r' x l end) eqn:E; [|apply acc_err].
  replace (match o with None => true | Some l => inList r x l end) with true; [apply acc_ok; [constructor|reflexivity]|].
  symmetry. destruct o as [l|]; auto. apply inList_spec. apply H. destruct o' as [l'|]; cbn; auto. now apply inList_spec.
Qed.

Section Body.
Variable dcall dcall' : string -> amap value -> bytes -> outcome (value * bytes).
Hypothesis Hcall : forall nm cenv c, used nm -> known r nm -> accepts eq holds (dcall nm cenv c) (dcall' nm cenv c).
Hypothesis Hleaves : forall nm cenv, leaves (dcall' nm cenv).
Variable n : nat.
Variable cenv : amap value.
Variable dat : bytes.
Notation d := (blen dat).

Lemma older_base : forall ctxs t t' c, OlderT t t' -> checkBase r ctxs t = true -> accepts eq holds (decBase r dcall cenv d t c) (decBase r' dcall' cenv d t' c).
Proof.
  intros ctxs t t' c S C. destruct S; cbn [decBase]; try (apply acc_same; [constructor|reflexivity]; fail).
  - now apply older_int.
  - apply Hcall; auto. cbn in C. destruct (Struct r n0) as [s|] eqn:E; [|discriminate]. exists s. split; auto. destruct (Extern s); [discriminate|auto].
Qed.
Lemma older_for : forall ctxs t t', OlderT t t' -> checkBase r ctxs t = true -> forall m k c, accepts eq (Forall2 holds) (decFor r dcall cenv d m t k c) (decFor r' dcall' cenv d m t' k c).
Proof.
  intros ctxs t t' S C. induction m as [|m IH]; intros k c; cbn [decFor]; (destruct (k <=? 0); [apply acc_ok; auto|]); [apply acc_fuel|].
  eapply acc_bind; [now apply (older_base ctxs)|]. intros v v' c1 H. cbn beta iota. eapply acc_bind; [apply IH|]. intros vs vs' c2 H2. apply acc_ok; auto.
Qed.
Lemma older_while : forall ctxs t t', OlderT t t' -> checkBase r ctxs t = true -> forall m c, accepts eq (Forall2 holds) (decWhile r dcall cenv d m t c) (decWhile r' dcall' cenv d m t' c).
Proof.
  intros ctxs t t' S C. induction m as [|m IH]; intros c; cbn [decWhile]; (destruct (blen c <=? 0); [apply acc_ok; auto|]); [apply acc_fuel|].
  eapply acc_bind; [now apply (older_base ctxs)|]. intros v v' c1 H. cbn beta iota. eapply acc_bind; [apply IH|]. intros vs vs' c2 H2. apply acc_ok; auto.
Qed.
Lemma older_within : forall {A B} closed (P : A -> B -> Prop) k c (f : bytes -> outcome (A * bytes)) (g : bytes -> outcome (B * bytes)),
  (forall c, accepts (toEnd closed) P (f c) (g c)) -> accepts eq P (decWithin k c f) (decWithin k c g).
Proof.
  intros A B closed P k c f g H. unfold decWithin. destruct (blen c <? k); [apply acc_err|]. destruct (k <? 0); [apply acc_panic|].
  intros b c' E. apply bind_ok in E as ([b1 c1] & E1 & E). destruct (0 <? blen c1) eqn:L; [discriminate|]. injection E as <- <-.
  destruct (H _ _ _ E1) as [->|(a & c2 & E2 & HP & HE)]; [left; reflexivity|]. rewrite E2. cbn [bind]. right.
  assert (c1 = []) as -> by (destruct c1; auto; unfold blen in L; cbn [length] in L; lia).
  assert (c2 = []) as -> by (destruct closed; cbn in HE; auto). exists a, (skipn (Z.to_nat k) c). auto.
Qed.
Lemma older_leaving : forall {A B} closed (P : A -> B -> Prop) k c (f : bytes -> outcome (A * bytes)) (g : bytes -> outcome (B * bytes)),
  (forall c, accepts (toEnd closed) P (f c) (g c)) -> accepts eq P (decLeaving k c f) (decLeaving k c g).
Proof.
  intros A B closed P k c f g H. unfold decLeaving. destruct (k <? 0); [apply acc_panic|]. destruct (blen c <? k); [apply acc_err|]. now apply (older_within closed).
Qed.
Lemma older_ref : forall fs fs' f, holdsFields fs fs' -> forall a, refVal camel fs' cenv f = Ok a -> isStuck (refVal camel fs cenv f) \/ refVal camel fs cenv f = Ok a.
Proof.
  intros fs fs' f H a. unfold refVal. destruct (String.eqb (rscope f) ""); auto. unfold asInt.
  destruct (alookup (camel (rname f)) fs) as [v|] eqn:E; [|left; reflexivity]. destruct (H _ _ E) as (v' & -> & HV).
  destruct v; try (left; reflexivity). apply holds_int in HV as ->. auto.
Qed.
Lemma older_list : forall o o', accepts eq (Forall2 holds) o o' ->
  accepts eq holds ('(vs, c1) <- o ;; Ok (VList vs, c1)) ('(vs, c1) <- o' ;; Ok (VList vs, c1)).
Proof.
  intros o o' H. eapply acc_bind; [exact H|]. intros a b c1 HP. apply acc_ok; auto. now constructor.
Qed.
Lemma older_type : forall ctxs k fs fs' t t' c, holdsFields fs fs' -> OlderT t t' -> checkType r ctxs k t = true ->
  accepts eq holds (decType camel r dcall n cenv d fs t c) (decType camel r' dcall' n cenv d fs' t' c).
Proof.
  intros ctxs k fs fs' t t' c HF S C. destruct S as [sz o o' L| | | |nm U|b b' i i' S I|b b' o o' S L]; cbn [decType];
    try (eapply (older_base ctxs); [constructor; auto|exact C]; fail).
  - cbn [checkType] in C. apply andb_true_iff in C as [C _]. destruct (same_integer r r' _ _ I) as (v & E & E'). rewrite E, E'. cbn [bind].
    apply older_list. now apply (older_for ctxs).
  - destruct o as [[f|i]|], o' as [[f'|i']|]; cbn [sameLengths sameLength checkType] in *; try contradiction.
    + subst f'. apply andb_true_iff in C as [C _]. apply acc_bindV; [now apply older_ref|]. intros x. rewrite (older_tipe b b' S).
      apply acc_bindV; [auto|]. intros g. match goal with |- context [if ?b then _ else _] => destruct b end; [apply acc_panic|].
      apply older_list. now apply (older_for ctxs).
    + apply andb_true_iff in C as [C _]. destruct (same_integer r r' _ _ L) as (v & E & E'). rewrite E, E'. cbn [bind].
      apply (older_leaving false). intros c0. apply older_list. now apply (older_while ctxs).
    + apply older_list. now apply (older_while ctxs).
Qed.

Variable old : list string.
Notation OlderM := (olderM camel cv cv' used old).
Notation OlderMs := (olderMs camel cv cv' used old).
(** The fields of the older struct, with what they hold. *)
Definition inv (fs fs' : amap value) : Prop := holdsFields fs fs' /\ forall k v, alookup k fs = Some v -> In k (map camel old).
Lemma inv_assign : forall fs fs' k v v', inv fs fs' -> holds v v' -> inv (assign k v fs) (assign k v' fs').
Proof.
  intros fs fs' k v v' [H K] HV. split; [now apply holds_assign|]. intros x u E. rewrite alookup_assign in E.
  destruct (String.eqb x k) eqn:X; [|eauto]. apply String.eqb_eq in X as ->. destruct (alookup k fs) as [w|] eqn:E1; [eauto|discriminate].
Qed.
Lemma inv_apart : forall fs fs' fs1' ms, inv fs fs' -> fresh camel old ms -> apartFrom camel (namesOf ms) fs' fs1' -> inv fs fs1'.
Proof.
  intros fs fs' fs1' ms [H K] F A. split; auto. intros k v E. destruct (H _ _ E) as (v' & E' & HV). exists v'. split; auto. rewrite A; auto.
  intros I. apply in_map_iff in I as (nm & <- & I). exact (F nm I (K _ _ E)).
Qed.

Lemma older_members0 : forall ctxs ms, Forall (fun m => forall k m', OlderM m m' -> checkMember r ctxs k m = true -> forall fs fs' c, inv fs fs' ->
    accepts eq inv (decMember camel r dcall n cenv d m fs c) (decMember camel r' dcall' n cenv d m' fs' c)) ms ->
  forall k closed ms', OlderMs closed ms ms' -> checkMembers r ctxs k ms = true -> forall fs fs' c, inv fs fs' ->
    accepts (toEnd closed) inv (decMembers camel r dcall n cenv d ms fs c) (decMembers camel r' dcall' n cenv d ms' fs' c).
Proof.
  intros ctxs ms F k closed ms' S. revert F k. induction S as [closed|closed m m' ms ms' SM S IH|ms' FR|closed ms' FR]; intros F k C fs fs' c HF.
  - apply acc_ok; auto. apply toEnd_eq.
  - cbn [decMembers checkMembers] in *. apply andb_true_iff in C as [C1 C2]. eapply acc_bind; [eapply (Forall_inv F); eauto|].
    intros a b c1 H. cbn beta iota. eapply IH; eauto. exact (Forall_inv_tail F).
  - intros b c' E. right. exists fs, []. split; [reflexivity|]. split; [|cbn; auto]. destruct (tame_members camel r' dcall' Hleaves n cenv dat ms' _ _ _ _ E) as [_ A]. eapply inv_apart; eauto.
  - intros b c' E. rewrite members_app in E. apply bind_ok in E as ([fs1 c1] & E & E1). cbn in E1. injection E1 as <- <-.
    right. exists fs, []. split; [reflexivity|]. split; [|apply toEnd_eq]. destruct (tame_members camel r' dcall' Hleaves n cenv dat ms' _ _ _ _ E) as [_ A]. eapply inv_apart; eauto.
Qed.
Lemma older_member : forall ctxs m k m', OlderM m m' -> checkMember r ctxs k m = true -> forall fs fs' c, inv fs fs' ->
    accepts eq inv (decMember camel r dcall n cenv d m fs c) (decMember camel r' dcall' n cenv d m' fs' c).
Proof.
  intros ctxs. induction m as [nm t|u tag len cs IH| | |] using member_ind'; intros k m' S C fs fs' c HF; inversion S as [? ? t' ST|? u' ? ? len' ? cs' SL TK NT| |]; subst.
  - cbn [decMember]. eapply acc_bind; [eapply older_type; eauto; apply HF|]. intros v v' c1 H. apply acc_ok; auto. now apply inv_assign.
  - rewrite !decMember_union. cbn zeta. rewrite Forall_forall in IH. destruct (check_union _ _ _ _ _ _ _ C) as (_ & _ & CC).
    assert (B : forall c, accepts (toEnd (match len with None => false | Some _ => true end)) inv (x <- refVal camel fs cenv tag ;; decPick camel r dcall n cenv dat cs x cs fs c)
                          (x <- refVal camel fs' cenv tag ;; decPick camel r' dcall' n cenv dat cs' x cs' fs' c)).
    { intros c0. apply acc_bindV; [apply older_ref; apply HF|]. intros x.
      destruct (pick_spec camel r' dcall' n cenv dat cs' x fs' c0 cs' [] eq_refl (Forall_nil _)) as [(c1 & T & E)|[N E]].
      - rewrite E. destruct (TK x c1 T) as [(rest & RF)|((c2 & T2) & X)].
        + rewrite RF. apply acc_err.
        + destruct (pick_spec camel r dcall n cenv dat cs x fs c0 cs [] eq_refl (Forall_nil _)) as [(c3 & T3 & E3)|[N3 _]]; [|exfalso; exact (N3 _ T2)].
          rewrite E3. pose proof (takes_in r cs x c3 T3) as I. destruct (CC _ I) as [_ CM]. eapply older_members0; eauto.
      - rewrite E. rewrite (pick_none camel r dcall n cenv dat cs x fs c0 (NT x N)). apply acc_ok; auto. apply toEnd_eq. }
    destruct len as [[f|i]|], len' as [[f'|i']|]; cbn [sameLengths sameLength decConstr] in *; try contradiction.
    + subst f'. apply acc_bindV; [apply older_ref; apply HF|]. intros x. now apply (older_within true).
    + destruct (same_integer r r' _ _ SL) as (v & E & E'). rewrite E, E'. cbn [bind]. now apply (older_leaving true).
    + apply B.
  - cbn [decMember]. destruct (0 <? blen c); [apply acc_err|apply acc_ok; auto].
  - apply acc_ok; auto.
Qed.
Lemma older_members : forall ctxs ms k closed ms', OlderMs closed ms ms' -> checkMembers r ctxs k ms = true -> forall fs fs' c, inv fs fs' ->
    accepts (toEnd closed) inv (decMembers camel r dcall n cenv d ms fs c) (decMembers camel r' dcall' n cenv d ms' fs' c).
Proof. intros. eapply older_members0; eauto. apply Forall_forall. intros. eapply older_member; eauto. Qed.
End Body.

Notation OlderS := (olderStruct camel cv cv' used).
(** New structs. *)
Lemma older_new : forall more s s', OlderS more s s' -> checkStruct camel r' s' = true -> inv (namesOf (members_of s)) (blank camel cv s) (blank camel cv' s').
Proof.
  intros more s s' (_ & _ & _ & _ & _ & K) CS. split.
  - intros k v E. apply alookup_some_in in E. unfold blank in E. apply in_map_iff in E as ([nm t] & E & I). cbn [fst snd] in E. injection E as <- <-.
    destruct (K nm t I) as (t' & I' & X). exists (blankOf cv' t'). split; [|rewrite (older_blank t t' X); constructor].
    apply alookup_in.
    + destruct (checked_parts camel r' s' CS) as (_ & _ & ND). unfold blank. rewrite map_map. cbn [fst]. rewrite fieldNames_list, map_map in ND. exact ND.
    + unfold blank. apply in_map_iff. exists (nm, t'). auto.
  - intros k v E. apply alookup_some_in in E. unfold blank in E. apply in_map_iff in E as (q & E & I). injection E as <- _. apply in_map. unfold namesOf. now apply in_map.
Qed.

Hypothesis Hstr : forall nm s, used nm -> Struct r nm = Some s -> Extern s = false ->
  checkStruct camel r s = true /\ exists s', Struct r' nm = Some s' /\ checkStruct camel r' s' = true /\ OlderS [] s s'.
Lemma older_call : forall m nm cenv c, used nm -> known r nm -> accepts eq holds (decCall camel r m nm cenv c) (decCall camel r' m nm cenv c).
Proof.
  induction m as [|m IH]; intros nm cenv c U (s & E & X); destruct (Hstr _ _ U E X) as (CS & s' & E' & CS' & SS); cbn [decCall]; rewrite E, E';
    destruct (structDecl_ok camel r s CS) as (ds & DS); destruct (structDecl_ok camel r' s' CS') as (ds' & DS'); rewrite DS, DS'; cbn [bind];
    pose proof SS as (_ & SC & _ & (ms' & EM & F) & _ & _); rewrite SC.
  - apply acc_bindV; [auto|]. intros args. apply acc_fuel.
  - apply acc_bindV; [auto|]. intros args.
    destruct (checked_parts _ _ _ CS) as (C1 & _). eapply acc_bind.
    + rewrite EM, app_nil_r. change (@eq bytes) with (toEnd false). eapply (older_members (decCall camel r m) (decCall camel r' m)); eauto.
      * intros nm0 cenv0. apply leaves_call.
      * rewrite (zeros_blank camel r s ds DS), (zeros_blank camel r' s' ds' DS'). eapply older_new; eauto.
    + intros a b c1 [H _]. apply acc_ok; auto. now constructor.
Qed.
Theorem older_struct : forall m more s s' fs fs' cenv c, checkStruct camel r s = true -> OlderS more s s' -> inv (namesOf (members_of s)) fs fs' ->
  accepts (fun c c' => suffix c c' /\ (more = [] -> c = c')) holdsFields (decStruct camel r m s fs cenv c) (decStruct camel r' m s' fs' cenv c).
Proof.
  intros [|m] more s s' fs fs' cenv c CS (_ & _ & _ & (ms' & EM & F) & FR & _) HF; [apply acc_fuel|]. cbn [decStruct]. destruct (checked_parts _ _ _ CS) as (C1 & _).
  intros b c' E. rewrite EM, members_app in E. apply bind_ok in E as ([fs1 c1] & E & E1).
  assert (A : accepts (toEnd false) (inv (namesOf (members_of s))) (decMembers camel r (decCall camel r m) m cenv (blen c) (members_of s) fs c) (decMembers camel r' (decCall camel r' m) m cenv (blen c) ms' fs' c)).
  { eapply older_members; eauto; [intros; now apply older_call|intros; apply leaves_call]. }
  destruct (A _ _ E) as [S|(a & c2 & E2 & HP & HE)]; [now left|]. cbn in HE. subst c2. right. exists a, c1. split; auto.
  destruct (tame_members camel r' (decCall camel r' m) (leaves_call camel r' m) m cenv c more _ _ _ _ E1) as [S A1]. split.
  - exact (proj1 (inv_apart _ _ _ _ _ HP FR A1)).
  - split; auto. intros ->. cbn in E1. now injection E1.
Qed.
End Older.

(** Unions with cases added. *)
Section Cases.
Variable camel : string -> string.
Variable r r' : resolver.
Notation cv := (Constant r).
Notation cv' := (Constant r').
Variable used : string -> Prop.
Variable old : list string.
Variable closed : bool.
Variable may : Z -> Prop.
Variable x : Z.
Notation Cases := (olderCases camel cv cv' used old closed may).
Notation Ms := (olderMs camel cv cv' used old closed).
Definition reads (c c' : ucase) : Prop := Ms (ucase_members c) (ucase_members c') \/ refuses (ucase_members c').
Definition added (c' : ucase) : Prop := may x /\ Ms [MIgnore] (ucase_members c').
Lemma matches_dec : forall r c, case_matches (Constant r) c x \/ ~ case_matches (Constant r) c x.
Proof.
  intros q [[l|] ms].
  - destruct (inList q x l) eqn:E.
    + left. exists l. split; auto. now apply inList_spec.
    + right. intros (l' & E1 & H). injection E1 as <-. apply inList_spec in H. congruence.
  - right. intros (l' & E1 & H). discriminate.
Qed.
Lemma fcases_first : forall cs cs', Cases cs cs' -> forall c', firstMatch x cv' cs' c' -> (exists c, firstMatch x cv cs c /\ reads c c') \/ added c'.
Proof.
  induction 1 as [|c c' cs cs' S F E IH|l ms cs cs' N M E IH]; intros d' H.
  - destruct H as (pre & post & X & _). destruct pre; discriminate.
  - apply first_cons in H as [[-> HM]|[HM H]].
    + left. exists c. split; auto. apply first_cons. left. split; auto. now apply (same_matches cv cv' x c d').
    + destruct (IH _ H) as [(d & H1 & H2)|H1]; auto. left. exists d. split; auto. apply first_cons. right. split; auto. intros M'. apply HM. now apply (same_matches cv cv' x c c').
  - apply first_cons in H as [[<- HM]|[_ H]]; auto. right. split; auto. destruct HM as (l0 & E0 & I). injection E0 as <-. auto.
Qed.
Lemma fcases_first' : forall cs cs', Cases cs cs' -> forall c, firstMatch x cv cs c -> exists c', firstMatch x cv' cs' c'.
Proof.
  induction 1 as [|c c' cs cs' S F E IH|l ms cs cs' N M E IH]; intros d H.
  - destruct H as (pre & post & X & _). destruct pre; discriminate.
  - apply first_cons in H as [[-> HM]|[HM H]].
    + exists c'. apply first_cons. left. split; auto. now apply (same_matches cv cv' x d c').
    + destruct (IH _ H) as (d' & H1). exists d'. apply first_cons. right. split; auto. intros M'. apply HM. now apply (same_matches cv cv' x c c').
  - destruct (matches_dec r' (UCase (Some l) ms)) as [Y|Y]; [exists (UCase (Some l) ms); apply first_cons; auto|].
    destruct (IH _ H) as (d' & H1). exists d'. apply first_cons. right. auto.
Qed.
Lemma fcases_none : forall cs cs', Cases cs cs' -> Forall (fun q => ~ case_matches cv' q x) cs' -> Forall (fun q => ~ case_matches cv q x) cs.
Proof.
  induction 1 as [|c c' cs cs' S F E IH|l ms cs cs' N M E IH]; intros H; [constructor| |].
  - constructor; [|apply IH; exact (Forall_inv_tail H)]. intros Y. apply (Forall_inv H). now apply (same_matches cv cv' x c c').
  - apply IH. exact (Forall_inv_tail H).
Qed.
Lemma fcases_default : forall cs cs', Cases cs cs' -> forall c', In c' cs' -> ucase_list c' = None -> exists c, In c cs /\ ucase_list c = None /\ reads c c'.
Proof.
  induction 1 as [|c c' cs cs' S F E IH|l ms cs cs' N M E IH]; intros d' I L; [destruct I| |].
  - destruct I as [<-|I].
    + exists c. split; [now left|]. split; auto. rewrite L in S. destruct (ucase_list c); [contradiction|auto].
    + destruct (IH _ I L) as (d & I1 & H). exists d. split; [now right|auto].
  - destruct I as [<-|I]; [discriminate|auto].
Qed.
Lemma fcases_default' : forall cs cs', Cases cs cs' -> forall c, In c cs -> ucase_list c = None -> exists c', In c' cs' /\ ucase_list c' = None.
Proof.
  induction 1 as [|c c' cs cs' S F E IH|l ms cs cs' N M E IH]; intros d I L; [destruct I| |].
  - destruct I as [<-|I].
    + exists c'. split; [now left|]. rewrite L in S. destruct (ucase_list c'); [contradiction|auto].
    + destruct (IH _ I L) as (d' & I1 & H). exists d'. split; [now right|auto].
  - destruct (IH _ I L) as (d' & I1 & H). exists d'. split; [now right|auto].
Qed.
Lemma first_dec : forall q cs, (exists c, firstMatch x (Constant q) cs c) \/ Forall (fun p => ~ case_matches (Constant q) p x) cs.
Proof.
  intros q. induction cs as [|c cs IH]; [right; constructor|]. destruct (matches_dec q c) as [M|M].
  - left. exists c. apply first_cons. auto.
  - destruct IH as [(d & H)|H]; [left; exists d; apply first_cons; auto|right; constructor; auto].
Qed.
Lemma fcases_takes : forall cs cs', Cases cs cs' -> forall c', takes cv' cs' x c' -> (exists c, takes cv cs x c /\ reads c c') \/ added c'.
Proof.
  intros cs cs' E c' [T|(N & I & L)].
  - destruct (fcases_first _ _ E c' T) as [(c & T1 & H)|H]; auto. left. exists c. split; auto. now left.
  - destruct (fcases_default _ _ E c' I L) as (c & I1 & L1 & H). left. exists c. split; auto. right. split; auto. now apply (fcases_none cs cs').
Qed.
Lemma fcases_takes' : forall cs cs', Cases cs cs' -> forall c, takes cv cs x c -> exists c', takes cv' cs' x c'.
Proof.
  intros cs cs' E c [T|(N & I & L)].
  - destruct (fcases_first' _ _ E c T) as (c' & T1). exists c'. now left.
  - destruct (first_dec r' cs') as [(c' & T)|N']; [exists c'; now left|].
    destruct (fcases_default' _ _ E c I L) as (c' & I1 & L1). exists c'. right. auto.
Qed.
End Cases.
Lemma older_union : forall camel r r' used old u u' tag len len' cs cs', sameLengths (Constant r) (Constant r') len len' -> one_default cs ->
  olderCases camel (Constant r) (Constant r') used old (match len with None => false | Some _ => true end) (ignored (Constant r) cs) cs cs' ->
  olderM camel (Constant r) (Constant r') used old (MUnion u tag len cs) (MUnion u' tag len' cs').
Proof.
  intros camel r r' used old u u' tag len len' cs cs' SL OD E. constructor; auto.
  - intros x c' T'. destruct (fcases_takes camel r r' used old _ _ x cs cs' E c' T') as [(c & T & [R|R])|[(c & T & M) R]]; auto; right.
    + split; [eauto|]. intros c0 T0. now rewrite (takes_unique _ _ _ _ _ OD T0 T).
    + split; [eauto|]. intros c0 T0. now rewrite (takes_unique _ _ _ _ _ OD T0 T), M.
  - intros x NT c T. destruct (fcases_takes' camel r r' used old _ _ x cs cs' E c T) as (c' & T'). exact (NT _ T').
Qed.
