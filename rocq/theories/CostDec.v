(** Decoding leaves at most what it was given, and less if the declaration eats. *)
From Coq Require Import ZArith String List Bool Lia.
From Coq Require Import ZifyBool ZifyNat.
From Verif Require Import Base Ast IntervalsModel InspectModel InspectSpec InspectProofs GoLang GenModel GenDecode GenCheck GenSim GenSimBody
  WireSpec.
Import ListNotations.
Open Scope string_scope.
Open Scope list_scope.
Open Scope Z_scope.
Ltac Zify.zify_post_hook ::= Z.div_mod_to_equations.

Lemma blen_nonneg : forall {A} (l : list A), 0 <= blen l.
Proof. intros. unfold blen. lia. Qed.
Lemma blen_skip : forall {A} (l : list A) k, 0 <= k <= blen l -> blen (skipn (Z.to_nat k) l) = blen l - k.
Proof. intros A l k H. unfold blen in *. rewrite skipn_length. lia. Qed.
Lemma blen_first : forall {A} (l : list A) k, 0 <= k <= blen l -> blen (firstn (Z.to_nat k) l) = k.
Proof. intros A l k H. unfold blen in *. rewrite firstn_length. lia. Qed.
Lemma s64_small : forall x, - two63 <= x < two63 -> s64 x = x.
Proof. intros x H. unfold s64. destruct (x mod two64 <? two63) eqn:E; unfold two64, two63 in *; lia. Qed.

Section Dec.
Variable camel : string -> string.
Variable r : resolver.
Notation cv := (Constant r).
Notation sv := (Struct r).

Lemma decInt_left : forall sz cst c v c', decInt r sz cst c = Ok (v, c') -> blen c' <= blen c.
Proof.
  intros sz cst c v c' H. unfold decInt in H. destruct (blen c <? sz / 8) eqn:L; [discriminate|].
  destruct (match cst with None => true | Some l => _ end); [|discriminate]. injection H as _ <-.
  unfold blen. rewrite skipn_length. lia.
Qed.
Lemma decInt_less : forall sz cst c v c', 0 < sz / 8 -> decInt r sz cst c = Ok (v, c') -> blen c' < blen c.
Proof.
  intros sz cst c v c' P H. unfold decInt in H. destruct (blen c <? sz / 8) eqn:L; [discriminate|].
  destruct (match cst with None => true | Some l => _ end); [|discriminate]. injection H as _ <-.
  rewrite blen_skip by lia. lia.
Qed.
Lemma decNul_less : forall c v c', blen c < two63 -> decNul c = Ok (v, c') -> blen c' < blen c.
Proof.
  intros c v c' B H. unfold decNul in H. destruct (indexByte c 0 0 <? 0) eqn:I; [discriminate|].
  pose proof (indexByte_bound c 0) as IB. destruct IB as [IB|IB]; [|lia].
  rewrite s64_small in H by lia.
  destruct ((indexByte c 0 0 + 1 <? 0) || (blen c <? indexByte c 0 0 + 1)) eqn:E; [discriminate|].
  injection H as _ <-. rewrite blen_skip by lia. lia.
Qed.

Section Body.
Variable dcall : string -> amap value -> bytes -> outcome (value * bytes).
Variable n : nat.
Variable cenv : amap value.
Variable dat : bytes.
Notation d := (blen dat).
Hypothesis Hc : forall nm ce c v c', blen c < two63 -> dcall nm ce c = Ok (v, c') -> blen c' <= blen c.
Notation decBase := (decBase r dcall cenv d).
Notation decFor := (decFor r dcall cenv d).
Notation decWhile := (decWhile r dcall cenv d).
Notation decType := (decType camel r dcall n cenv d).
Notation decMember := (decMember camel r dcall n cenv d).
Notation decMembers := (decMembers camel r dcall n cenv d).

Lemma decBase_left : forall t c v c', blen c < two63 -> decBase t c = Ok (v, c') -> blen c' <= blen c.
Proof.
  intros t c v c' B H. destruct t; cbn [GenDecode.decBase] in H; try discriminate.
  - eapply decInt_left; eauto.
  - eapply decInt_left; eauto.
  - injection H as _ <-. lia.
  - apply decNul_less in H; [lia|auto].
  - eapply Hc; eauto.
Qed.
Lemma decFor_left : forall m t k c v c', blen c < two63 -> decFor m t k c = Ok (v, c') -> blen c' <= blen c.
Proof.
  induction m as [|m IH]; intros t k c v c' B H; cbn [GenDecode.decFor] in H; destruct (k <=? 0); try discriminate.
  - injection H as _ <-. lia.
  - injection H as _ <-. lia.
  - apply bind_ok in H as ([v1 c1] & H1 & H). apply bind_ok in H as ([vs c2] & H2 & H). injection H as _ <-.
    apply decBase_left in H1; auto. apply IH in H2; lia.
Qed.
Lemma decWhile_left : forall m t c v c', decWhile m t c = Ok (v, c') -> blen c' <= 0.
Proof.
  induction m as [|m IH]; intros t c v c' H; cbn [GenDecode.decWhile] in H; destruct (blen c <=? 0) eqn:E; try discriminate.
  - injection H as _ <-. lia.
  - injection H as _ <-. lia.
  - apply bind_ok in H as ([v1 c1] & H1 & H). apply bind_ok in H as ([vs c2] & H2 & H). injection H as _ <-. eauto.
Qed.
Lemma decWithin_ok : forall {A} k c (body : bytes -> outcome (A * bytes)) a c', decWithin k c body = Ok (a, c') ->
  0 <= k <= blen c /\ c' = skipn (Z.to_nat k) c /\ exists c1, body (firstn (Z.to_nat k) c) = Ok (a, c1) /\ blen c1 <= 0.
Proof.
  intros A k c body a c' H. unfold decWithin in H. destruct (blen c <? k) eqn:E; [discriminate|].
  destruct (k <? 0) eqn:E2; [discriminate|]. apply bind_ok in H as ([a1 c1] & H1 & H).
  destruct (0 <? blen c1) eqn:E3; [discriminate|]. injection H as <- <-. split; [lia|]. split; auto. exists c1. split; auto. lia.
Qed.
Lemma decLeaving_ok : forall {A} k c (body : bytes -> outcome (A * bytes)) a c', blen c < two63 -> decLeaving k c body = Ok (a, c') ->
  0 <= k <= blen c /\ decWithin (blen c - k) c body = Ok (a, c').
Proof.
  intros A k c body a c' B H. unfold decLeaving in H. destruct (k <? 0) eqn:E; [discriminate|].
  destruct (blen c <? k) eqn:E2; [discriminate|]. rewrite s64_small in H by (pose proof (blen_nonneg c); unfold two63 in *; lia). split; [lia|auto].
Qed.
Lemma decWithin_left : forall {A} k c (body : bytes -> outcome (A * bytes)) a c', decWithin k c body = Ok (a, c') -> blen c' <= blen c.
Proof. intros A k c body a c' H. apply decWithin_ok in H as (K & -> & _). rewrite blen_skip; lia. Qed.

Lemma decType_left : forall fs t c v c', blen c < two63 -> decType fs t c = Ok (v, c') -> blen c' <= blen c.
Proof.
  intros fs t c v c' B H. destruct t as [| | | | |b i|b [[f|i]|]]; cbn [GenDecode.decType] in H; try (eapply decBase_left; eauto; fail).
  - apply bind_ok in H as (k & _ & H). apply bind_ok in H as ([vs c1] & H & E). injection E as _ <-. eapply decFor_left; eauto.
  - apply bind_ok in H as (x & _ & H). apply bind_ok in H as (g & _ & H).
    destruct ((s64 x <? 0) || (maxAlloc <? s64 x * gsize g)); [discriminate|].
    apply bind_ok in H as ([vs c1] & H & E). injection E as _ <-. eapply decFor_left; eauto.
  - apply bind_ok in H as (k & _ & H). apply decLeaving_ok in H as [_ H]; auto. eapply decWithin_left; eauto.
  - apply bind_ok in H as ([vs c1] & H & E). injection E as _ <-. apply decWhile_left in H. pose proof (blen_nonneg c). lia.
Qed.

Definition mleft (m : member) : Prop := forall fs c fs' c', blen c < two63 -> decMember m fs c = Ok (fs', c') -> blen c' <= blen c.
Lemma decMembers_left0 : forall ms, Forall mleft ms -> forall fs c fs' c', blen c < two63 -> decMembers ms fs c = Ok (fs', c') -> blen c' <= blen c.
Proof.
  induction ms as [|m ms IH]; intros F fs c fs' c' B H; cbn [GenDecode.decMembers] in H.
  - injection H as _ <-. lia.
  - apply bind_ok in H as ([fs1 c1] & H1 & H). apply (Forall_inv F) in H1; auto. apply (IH (Forall_inv_tail F)) in H; lia.
Qed.
(** The body of a union. *)
Lemma decUnion_ok : forall u tag len cs fs c fs' c', blen c < two63 -> decMember (MUnion u tag len cs) fs c = Ok (fs', c') ->
  exists c0 c1 x, blen c0 <= blen c /\ decPick camel r dcall n cenv dat cs x cs fs c0 = Ok (fs', c1) /\
    blen c0 - blen c1 <= blen c - blen c' /\ blen c' <= blen c - blen c0 + blen c1.
Proof.
  intros u tag len cs fs c fs' c' B H. rewrite decMember_union in H. cbn zeta in H.
  assert (W : forall k, decWithin k c (fun c0 => x <- refVal camel fs cenv tag ;; decPick camel r dcall n cenv dat cs x cs fs c0) = Ok (fs', c') ->
    exists c0 c1 x, blen c0 <= blen c /\ decPick camel r dcall n cenv dat cs x cs fs c0 = Ok (fs', c1) /\
    blen c0 - blen c1 <= blen c - blen c' /\ blen c' <= blen c - blen c0 + blen c1).
  { intros k W. apply decWithin_ok in W as (K & -> & c1 & W & L). apply bind_ok in W as (x & _ & W).
    exists (firstn (Z.to_nat k) c), c1, x. pose proof (blen_nonneg c1). rewrite blen_first, blen_skip by lia. repeat split; auto; lia. }
  destruct len as [[f|i]|]; cbn [decConstr] in H.
  - apply bind_ok in H as (k & _ & H). eauto.
  - apply bind_ok in H as (k & _ & H). apply decLeaving_ok in H as [_ H]; auto. eauto.
  - apply bind_ok in H as (x & _ & H). exists c, c', x. repeat split; auto; lia.
Qed.
Lemma decMember_left : forall m, mleft m.
Proof.
  induction m as [nm t|u tag len cs IH| | |] using member_ind'; intros fs c fs' c' B H.
  - cbn [GenDecode.decMember] in H. apply bind_ok in H as ([v c1] & H1 & H). injection H as _ <-. eapply decType_left; eauto.
  - apply decUnion_ok in H as (c0 & c1 & x & L & H & _ & L2); auto.
    destruct (decPick_in camel r dcall n cenv dat cs x cs fs c0) as [(k & ms & I & E)|E]; rewrite E in H.
    + assert (I' : In (UCase k ms) cs) by (apply in_app_or in I; tauto).
      rewrite Forall_forall in IH. apply (decMembers_left0 ms (IH _ I')) in H; lia.
    + injection H as _ <-. lia.
  - cbn in H. destruct (0 <? blen c); [discriminate|]. injection H as _ <-. lia.
  - discriminate.
  - cbn in H. injection H as _ <-. change (blen (@nil Z)) with 0. apply blen_nonneg.
Qed.
Lemma decMembers_left : forall ms fs c fs' c', blen c < two63 -> decMembers ms fs c = Ok (fs', c') -> blen c' <= blen c.
Proof. intros ms. apply decMembers_left0. apply Forall_forall. intros m _. apply decMember_left. Qed.

(** The choice of a case, when there is a default. *)
Lemma decPick_default : forall all x cs fs c, (exists u, In u all /\ ucase_list u = None) ->
  exists k ms, In (UCase k ms) (cs ++ all) /\ decPick camel r dcall n cenv dat all x cs fs c = decMembers ms fs c.
Proof.
  intros all x cs fs c (u & Iu & Eu). induction cs as [|[[l|] ms] cs IH]; cbn [decPick].
  - cbn [app]. induction all as [|[[l|] ms] all IH]; cbn [decDflt]; [destruct Iu| |].
    + destruct Iu as [<-|Iu]; [discriminate|]. destruct (IH Iu) as (k & ms' & I & E). exists k, ms'. cbn. auto.
    + exists None, ms. cbn. auto.
  - destruct (inList r x l).
    + exists (Some l), ms. cbn. auto.
    + destruct IH as (k & ms' & I & E). exists k, ms'. cbn. auto.
  - destruct IH as (k & ms' & I & E). exists k, ms'. cbn. auto.
Qed.
End Body.

Lemma decCall_left : forall m nm ce c v c', blen c < two63 -> decCall camel r m nm ce c = Ok (v, c') -> blen c' <= blen c.
Proof.
  induction m as [|m IH]; intros nm ce c v c' B H; cbn [decCall] in H; destruct (Struct r nm) as [s|]; try discriminate;
    apply bind_ok in H as (ds & _ & H); apply bind_ok in H as (args & _ & H); [discriminate|].
  apply bind_ok in H as ([fs c1] & H & E). injection E as _ <-.
  eapply (decMembers_left (decCall camel r m) m (combine (scontexts s) args) c); eauto.
Qed.

(** Declarations that eat leave less. *)
Theorem eats_less :
  (forall t, eats cv sv t -> forall m n cenv (dat : bytes) fs c v c', blen c < two63 ->
     decType camel r (decCall camel r m) n cenv (blen dat) fs t c = Ok (v, c') -> blen c' < blen c) /\
  (forall mb, eatsM cv sv mb -> forall m n cenv (dat : bytes) fs c fs' c', blen c < two63 ->
     decMember camel r (decCall camel r m) n cenv (blen dat) mb fs c = Ok (fs', c') -> blen c' < blen c) /\
  (forall ms, eatsMs cv sv ms -> forall m n cenv (dat : bytes) fs c fs' c', blen c < two63 ->
     decMembers camel r (decCall camel r m) n cenv (blen dat) ms fs c = Ok (fs', c') -> blen c' < blen c).
Proof.
  apply (eats_mutind cv sv
    (fun t _ => forall m n cenv (dat : bytes) fs c v c', blen c < two63 ->
       decType camel r (decCall camel r m) n cenv (blen dat) fs t c = Ok (v, c') -> blen c' < blen c)
    (fun mb _ => forall m n cenv (dat : bytes) fs c fs' c', blen c < two63 ->
       decMember camel r (decCall camel r m) n cenv (blen dat) mb fs c = Ok (fs', c') -> blen c' < blen c)
    (fun ms _ => forall m n cenv (dat : bytes) fs c fs' c', blen c < two63 ->
       decMembers camel r (decCall camel r m) n cenv (blen dat) ms fs c = Ok (fs', c') -> blen c' < blen c)).
  - intros sz cst P m n cenv dat fs c v c' B H. cbn [decType decBase] in H. eapply decInt_less; eauto.
  - intros m n cenv dat fs c v c' B H. cbn [decType decBase] in H. eapply decInt_less; eauto. cbn. lia.
  - intros m n cenv dat fs c v c' B H. cbn [decType decBase] in H. eapply decNul_less; eauto.
  - intros nm s HS _ IH m n cenv dat fs c v c' B H. cbn [decType decBase] in H.
    destruct m as [|m]; cbn [decCall] in H; rewrite HS in H;
      apply bind_ok in H as (ds & _ & H); apply bind_ok in H as (args & _ & H); [discriminate|].
    apply bind_ok in H as ([fs1 c1] & H & E). injection E as _ <-. eapply IH; eauto.
  - intros b i k HK P EB IH m n cenv dat fs c v c' B H. cbn [decType] in H.
    apply bind_ok in H as (k' & Hk' & H). apply integerOf_value in Hk'. assert (k' = k) by congruence. subst k'.
    apply bind_ok in H as ([vs c1] & H & E). injection E as _ <-.
    destruct n as [|n]; cbn [decFor] in H; destruct (k <=? 0) eqn:K0; try lia; [discriminate|].
    apply bind_ok in H as ([v1 c2] & H1 & H). apply bind_ok in H as ([vs' c3] & H2 & H). injection H as _ <-.
    apply decFor_left in H2; [|intros *; apply decCall_left|].
    + assert (X : blen c2 < blen c); [|lia]. eapply (IH m n cenv dat fs); eauto.
      destruct b; cbn [decType]; try exact H1; cbn in H1; discriminate H1.
    + apply decBase_left in H1; auto; [lia|]. intros *; apply decCall_left.
  - intros nm t _ IH m n cenv dat fs c fs' c' B H. cbn [decMember] in H. apply bind_ok in H as ([v c1] & H & E).
    injection E as _ <-. eapply IH; eauto.
  - intros u tag len cs HD _ IH m n cenv dat fs c fs' c' B H. apply decUnion_ok in H as (c0 & c1 & x & L & H & L2 & _); [|intros *; apply decCall_left|auto].
    destruct (decPick_default (decCall camel r m) n cenv dat cs x cs fs c0 HD) as (k & ms & I & E). rewrite E in H.
    assert (I' : In (UCase k ms) cs) by (apply in_app_or in I; tauto).
    apply (IH _ I') in H; lia.
  - intros m n cenv dat fs c fs' c' B H. discriminate.
  - intros mb ms _ IH m n cenv dat fs c fs' c' B H. cbn [decMembers] in H. apply bind_ok in H as ([fs1 c1] & H1 & H).
    apply IH in H1; auto. apply decMembers_left in H; [lia| |lia]. intros *; apply decCall_left.
  - intros mb ms _ IH m n cenv dat fs c fs' c' B H. cbn [decMembers] in H. apply bind_ok in H as ([fs1 c1] & H1 & H).
    apply decMember_left in H1; [|intros *; apply decCall_left|auto]. apply IH in H; lia.
Qed.
End Dec.
