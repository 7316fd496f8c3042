(** Two facts about the decoder that hold for all declarations: more fuel does
    not change an outcome, and what is left is the end of the input. *)
From Coq Require Import ZArith String List Bool Lia.
From Verif Require Import Base Ast IntervalsModel InspectModel InspectSpec GoLang GenModel GenDecode GenSimBody.
Import ListNotations.
Open Scope string_scope.
Open Scope list_scope.
Open Scope Z_scope.

Definition le {A} (o o' : outcome A) : Prop := o = OutOfFuel \/ o = o'.
Lemma le_refl : forall {A} (o : outcome A), le o o.
Proof. right. reflexivity. Qed.
Lemma le_bind : forall {A B} (o o' : outcome A) (f f' : A -> outcome B), le o o' -> (forall a, le (f a) (f' a)) -> le (bind o f) (bind o' f').
Proof. intros A B o o' f f' [-> | ->] H; [left; reflexivity|]. destruct o'; cbn; auto; right; reflexivity. Qed.

Definition suf (c c' : bytes) : Prop := exists w, c = w ++ c'.
Lemma suf_refl : forall c, suf c c.
Proof. intros c. exists []. reflexivity. Qed.
Lemma suf_trans : forall a b c, suf a b -> suf b c -> suf a c.
Proof. intros a b c (w & ->) (w' & ->). exists (w ++ w'). now rewrite app_assoc. Qed.
Lemma suf_skipn : forall k c, suf c (skipn k c).
Proof. intros k c. exists (firstn k c). now rewrite firstn_skipn. Qed.

Section Fix.
Variable camel : string -> string.
Variable r : resolver.

Section Two.
Variable dcall dcall' : string -> amap value -> bytes -> outcome (value * bytes).
Variable n n' : nat.
Variable cenv : amap value.
Variable dat : bytes.
Notation d := (blen dat).
Hypothesis Hn : (n <= n')%nat.
Hypothesis Hcall : forall nm cenv c, le (dcall nm cenv c) (dcall' nm cenv c).

Lemma base_mono : forall t c, le (decBase r dcall cenv d t c) (decBase r dcall' cenv d t c).
Proof. intros [] c; cbn [decBase]; try apply le_refl. apply Hcall. Qed.
Lemma for_mono : forall t m m' k c, (m <= m')%nat -> le (decFor r dcall cenv d m t k c) (decFor r dcall' cenv d m' t k c).
Proof.
  intros t. induction m as [|m IH]; intros m' k c L; cbn [decFor].
  - destruct (k <=? 0) eqn:K; [|left; reflexivity]. destruct m'; cbn [decFor]; rewrite K; apply le_refl.
  - destruct m' as [|m']; [lia|]. cbn [decFor]. destruct (k <=? 0); [apply le_refl|].
    apply le_bind; [apply base_mono|]. intros [v c1]. apply le_bind; [apply IH; lia|]. intros [vs c2]. apply le_refl.
Qed.
Lemma while_mono : forall t m m' c, (m <= m')%nat -> le (decWhile r dcall cenv d m t c) (decWhile r dcall' cenv d m' t c).
Proof.
  intros t. induction m as [|m IH]; intros m' c L; cbn [decWhile].
  - destruct (blen c <=? 0) eqn:K; [|left; reflexivity]. destruct m'; cbn [decWhile]; rewrite K; apply le_refl.
  - destruct m' as [|m']; [lia|]. cbn [decWhile]. destruct (blen c <=? 0); [apply le_refl|].
    apply le_bind; [apply base_mono|]. intros [v c1]. apply le_bind; [apply IH; lia|]. intros [vs c2]. apply le_refl.
Qed.
Lemma within_mono : forall {A} k c (b b' : bytes -> outcome (A * bytes)), (forall c, le (b c) (b' c)) -> le (decWithin k c b) (decWithin k c b').
Proof.
  intros A k c b b' H. unfold decWithin. destruct (blen c <? k); [apply le_refl|]. destruct (k <? 0); [apply le_refl|].
  apply le_bind; auto. intros [a c1]. apply le_refl.
Qed.
Lemma leaving_mono : forall {A} k c (b b' : bytes -> outcome (A * bytes)), (forall c, le (b c) (b' c)) -> le (decLeaving k c b) (decLeaving k c b').
Proof.
  intros A k c b b' H. unfold decLeaving. destruct (k <? 0); [apply le_refl|]. destruct (blen c <? k); [apply le_refl|].
  now apply within_mono.
Qed.
Lemma type_mono : forall fs t c, le (decType camel r dcall n cenv d fs t c) (decType camel r dcall' n' cenv d fs t c).
Proof.
  intros fs t c. destruct t as [sz cst| | | |nm|b i|b [[f|i]|]]; cbn [decType]; try apply base_mono.
  - apply le_bind; [apply le_refl|]. intros k. apply le_bind; [now apply for_mono|]. intros [vs c1]. apply le_refl.
  - apply le_bind; [apply le_refl|]. intros x. apply le_bind; [apply le_refl|]. intros g.
    match goal with |- context [if ?b then _ else _] => destruct b end; [apply le_refl|].
    apply le_bind; [now apply for_mono|]. intros [vs c1]. apply le_refl.
  - apply le_bind; [apply le_refl|]. intros k. apply leaving_mono. intros c0. apply le_bind; [now apply while_mono|].
    intros [vs c1]. apply le_refl.
  - apply le_bind; [now apply while_mono|]. intros [vs c1]. apply le_refl.
Qed.
Lemma members_mono0 : forall ms, Forall (fun m => forall fs c, le (decMember camel r dcall n cenv d m fs c) (decMember camel r dcall' n' cenv d m fs c)) ms ->
  forall fs c, le (decMembers camel r dcall n cenv d ms fs c) (decMembers camel r dcall' n' cenv d ms fs c).
Proof.
  induction ms as [|m ms IH]; intros F fs c; cbn [decMembers]; [apply le_refl|].
  apply le_bind; [apply (Forall_inv F)|]. intros [fs1 c1]. apply IH. exact (Forall_inv_tail F).
Qed.
Lemma member_mono : forall m fs c, le (decMember camel r dcall n cenv d m fs c) (decMember camel r dcall' n' cenv d m fs c).
Proof.
  induction m as [nm t|u tag len cs IH| | |] using member_ind'; intros fs c; try apply le_refl.
  - cbn [decMember]. apply le_bind; [apply type_mono|]. intros [v c1]. apply le_refl.
  - rewrite !decMember_union. cbn zeta.
    assert (B : forall c, le (x <- refVal camel fs cenv tag ;; decPick camel r dcall n cenv dat cs x cs fs c)
                             (x <- refVal camel fs cenv tag ;; decPick camel r dcall' n' cenv dat cs x cs fs c)).
    { intros c0. apply le_bind; [apply le_refl|]. intros x. rewrite Forall_forall in IH.
      assert (X : forall cs0, incl cs0 cs -> le (decPick camel r dcall n cenv dat cs x cs0 fs c0) (decPick camel r dcall' n' cenv dat cs x cs0 fs c0)).
      { induction cs0 as [|[[l|] ms] cs0 IH0]; intros IN; cbn [decPick].
        - assert (Y : forall cs1, incl cs1 cs -> le (decDflt camel r dcall n cenv dat cs1 fs c0) (decDflt camel r dcall' n' cenv dat cs1 fs c0)).
          { induction cs1 as [|[[l|] ms] cs1 IH1]; intros IN1; cbn [decDflt]; [apply le_refl| |].
            - apply IH1. intros y Hy. apply IN1. now right.
            - apply members_mono0. apply (IH (UCase None ms)). apply IN1. now left. }
          apply Y. intros y; auto.
        - destruct (inList r x l); [apply members_mono0; apply (IH (UCase (Some l) ms)); apply IN; now left|].
          apply IH0. intros y Hy. apply IN. now right.
        - apply IH0. intros y Hy. apply IN. now right. }
      apply X. intros y; auto. }
    destruct len as [[f|i]|]; cbn [decConstr].
    + apply le_bind; [apply le_refl|]. intros k. apply within_mono. exact B.
    + apply le_bind; [apply le_refl|]. intros k. apply leaving_mono. exact B.
    + apply B.
Qed.
Lemma members_mono : forall ms fs c, le (decMembers camel r dcall n cenv d ms fs c) (decMembers camel r dcall' n' cenv d ms fs c).
Proof. intros. apply members_mono0. apply Forall_forall. intros. apply member_mono. Qed.
End Two.

Lemma call_mono : forall m m' nm cenv c, (m <= m')%nat -> le (decCall camel r m nm cenv c) (decCall camel r m' nm cenv c).
Proof.
  induction m as [|m IH]; intros m' nm cenv c L.
  - cbn [decCall]. destruct m' as [|m']; [apply le_refl|]. cbn [decCall]. destruct (Struct r nm); [|apply le_refl].
    apply le_bind; [apply le_refl|]. intros ds. apply le_bind; [apply le_refl|]. intros args. left. reflexivity.
  - destruct m' as [|m']; [lia|]. cbn [decCall]. destruct (Struct r nm); [|apply le_refl].
    apply le_bind; [apply le_refl|]. intros ds. apply le_bind; [apply le_refl|]. intros args.
    apply le_bind; [|intros [fs c1]; apply le_refl]. apply members_mono; [lia|]. intros. apply IH. lia.
Qed.
Theorem struct_mono : forall m m' s fs cenv c, (m <= m')%nat -> le (decStruct camel r m s fs cenv c) (decStruct camel r m' s fs cenv c).
Proof.
  intros [|m] [|m'] s fs cenv c L; try lia; try apply le_refl; [left; reflexivity|]. cbn [decStruct].
  apply members_mono; [lia|]. intros. apply call_mono. lia.
Qed.

(* ---------- suffixes ---------- *)
Definition left_ {A} (c : bytes) (o : outcome (A * bytes)) : Prop := forall a c', o = Ok (a, c') -> suf c c'.
Lemma left_err : forall {A} c e, @left_ A c (Err e).
Proof. intros A c e a c' H. discriminate. Qed.

Section Suf.
Variable dcall : string -> amap value -> bytes -> outcome (value * bytes).
Variable n : nat.
Variable cenv : amap value.
Variable dat : bytes.
Notation d := (blen dat).
Hypothesis Hcall : forall nm cenv c, left_ c (dcall nm cenv c).

Lemma int_suf : forall sz cst c, left_ c (decInt r sz cst c).
Proof.
  intros sz cst c a c' H. unfold decInt in H. destruct (blen c <? sz / 8); [discriminate|].
  match type of H with context [if ?b then _ else _] => destruct b end; [|discriminate]. injection H as <- <-. apply suf_skipn.
Qed.
Lemma base_suf : forall t c, left_ c (decBase r dcall cenv d t c).
Proof.
  intros [] c; cbn [decBase]; try apply int_suf; try apply Hcall; try (intros a c' H; discriminate).
  - intros a c' H. injection H as <- <-. apply suf_refl.
  - intros a c' H. unfold decNul in H. destruct (indexByte c 0 0 <? 0); [discriminate|].
    match type of H with context [if ?b then _ else _] => destruct b end; [discriminate|]. injection H as <- <-. apply suf_skipn.
Qed.
Lemma for_suf : forall t m k c, left_ c (decFor r dcall cenv d m t k c).
Proof.
  intros t. induction m as [|m IH]; intros k c a c' H; cbn [decFor] in H; destruct (k <=? 0); try discriminate.
  1,2: injection H as <- <-; apply suf_refl.
  apply bind_ok in H as ([v c1] & H1 & H). apply bind_ok in H as ([vs c2] & H2 & H). injection H as <- <-.
  eapply suf_trans; [eapply base_suf; eauto|eapply IH; eauto].
Qed.
Lemma while_suf : forall t m c, left_ c (decWhile r dcall cenv d m t c).
Proof.
  intros t. induction m as [|m IH]; intros c a c' H; cbn [decWhile] in H; destruct (blen c <=? 0); try discriminate.
  1,2: injection H as <- <-; apply suf_refl.
  apply bind_ok in H as ([v c1] & H1 & H). apply bind_ok in H as ([vs c2] & H2 & H). injection H as <- <-.
  eapply suf_trans; [eapply base_suf; eauto|eapply IH; eauto].
Qed.
Lemma within_suf : forall {A} k c (b : bytes -> outcome (A * bytes)), left_ c (decWithin k c b).
Proof.
  intros A k c b a c' H. unfold decWithin in H. destruct (blen c <? k); [discriminate|]. destruct (k <? 0); [discriminate|].
  apply bind_ok in H as ([v c1] & H1 & H). cbn in H. destruct (0 <? blen c1); [discriminate|]. injection H as <- <-. apply suf_skipn.
Qed.
Lemma leaving_suf : forall {A} k c (b : bytes -> outcome (A * bytes)), left_ c (decLeaving k c b).
Proof.
  intros A k c b a c' H. unfold decLeaving in H. destruct (k <? 0); [discriminate|]. destruct (blen c <? k); [discriminate|].
  eapply within_suf; eauto.
Qed.
Lemma type_suf : forall fs t c, left_ c (decType camel r dcall n cenv d fs t c).
Proof.
  intros fs t c. destruct t as [sz cst| | | |nm|b i|b [[f|i]|]]; cbn [decType]; try apply base_suf; intros a c' H.
  - apply bind_ok in H as (k & _ & H). apply bind_ok in H as ([vs c1] & H1 & H). injection H as <- <-. eapply for_suf; eauto.
  - apply bind_ok in H as (x & _ & H). apply bind_ok in H as (g & _ & H).
    match type of H with context [if ?b then _ else _] => destruct b end; [discriminate|].
    apply bind_ok in H as ([vs c1] & H1 & H). injection H as <- <-. eapply for_suf; eauto.
  - apply bind_ok in H as (k & _ & H). eapply leaving_suf; eauto.
  - apply bind_ok in H as ([vs c1] & H1 & H). injection H as <- <-. eapply while_suf; eauto.
Qed.
Lemma members_suf0 : forall ms, Forall (fun m => forall fs c, left_ c (decMember camel r dcall n cenv d m fs c)) ms ->
  forall fs c, left_ c (decMembers camel r dcall n cenv d ms fs c).
Proof.
  induction ms as [|m ms IH]; intros F fs c a c' H; cbn [decMembers] in H.
  - injection H as <- <-. apply suf_refl.
  - apply bind_ok in H as ([fs1 c1] & H1 & H). eapply suf_trans; [eapply (Forall_inv F); eauto|].
    eapply IH; eauto. exact (Forall_inv_tail F).
Qed.
Lemma member_suf : forall m fs c, left_ c (decMember camel r dcall n cenv d m fs c).
Proof.
  induction m as [nm t|u tag len cs IH| | |] using member_ind'; intros fs c a c' H.
  - cbn [decMember] in H. apply bind_ok in H as ([v c1] & H1 & H). injection H as <- <-. eapply type_suf; eauto.
  - rewrite decMember_union in H. cbn zeta in H. destruct len as [[f|i]|]; cbn [decConstr] in H.
    + apply bind_ok in H as (k & _ & H). eapply within_suf; eauto.
    + apply bind_ok in H as (k & _ & H). eapply leaving_suf; eauto.
    + apply bind_ok in H as (x & _ & H). destruct (decPick_in camel r dcall n cenv dat cs x cs fs c) as [(k & ms & IN & E')|E'].
      * rewrite E' in H. assert (IN' : In (UCase k ms) cs) by (apply in_app_or in IN; tauto).
        rewrite Forall_forall in IH. eapply (members_suf0 ms (IH _ IN')); eauto.
      * rewrite E' in H. injection H as <- <-. apply suf_refl.
  - cbn [decMember] in H. destruct (0 <? blen c); [discriminate|]. injection H as <- <-. apply suf_refl.
  - discriminate.
  - cbn in H. injection H as <- <-. exists c. now rewrite app_nil_r.
Qed.
End Suf.

Lemma call_suf : forall m nm cenv c, left_ c (decCall camel r m nm cenv c).
Proof.
  induction m as [|m IH]; intros nm cenv c a c' H; cbn [decCall] in H; (destruct (Struct r nm); [|discriminate]);
    apply bind_ok in H as (ds & _ & H); apply bind_ok in H as (args & _ & H); [discriminate|].
  apply bind_ok in H as ([fs c1] & H1 & H). injection H as <- <-.
  eapply members_suf0; [|exact H1]. apply Forall_forall. intros. apply member_suf. intros; apply IH.
Qed.
Theorem struct_suf : forall m s fs cenv c, left_ c (decStruct camel r m s fs cenv c).
Proof.
  intros [|m] s fs cenv c a c' H; [discriminate|]. cbn [decStruct] in H.
  eapply members_suf0; [|exact H]. apply Forall_forall. intros. apply member_suf. intros; apply call_suf.
Qed.
End Fix.
