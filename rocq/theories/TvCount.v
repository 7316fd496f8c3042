(** The number of vectors that the generator makes. *)
From Coq Require Import ZArith String List Bool Arith Lia.
From Verif Require Import Base Ast IntervalsModel InspectModel InspectSpec InspectProofs TvModel TvFacts TvLeaf TvAlone CountSpec.
Import ListNotations.
Open Scope string_scope.
Open Scope list_scope.
Open Scope nat_scope.

Lemma pow_le : forall b n m, (b = 0 -> 0 < n) -> n <= m -> b ^ n <= b ^ m.
Proof.
  intros b n m Z L. destruct b as [|b]; [|now apply Nat.pow_le_mono_r; lia].
  destruct n as [|n]; [specialize (Z eq_refl); lia|]. cbn. lia.
Qed.
Lemma pow_one : forall b n, b <= 1 -> b ^ n <= 1.
Proof. intros b n L. replace 1 with (1 ^ n) by apply Nat.pow_1_l. now apply Nat.pow_le_mono_l. Qed.

Section Count.
Variable grow : nat -> nat -> nat.
Variable ords : nat -> uorders.
Variable sel : nat -> list vec -> list vec.
Hypothesis Hsel : forall j vs, List.length (sel j vs) <= List.length vs.
Variable r : resolver.
Variable k : string -> nat.

Ltac bnd H q := match type of H with bind ?x _ = Ok _ => let E := fresh "E" in destruct x as [q| | |] eqn:E; cbn [bind] in H; try discriminate H end.

Lemma crossOne_length : forall u b g p g', crossOne grow ords u b g = Ok (p, g') -> List.length p = List.length b.
Proof. clear Hsel.
  intros u b. induction b as [|w b IH]; intros g p g' H; cbn [crossOne] in H; [now injection H as <- _|].
  bnd H qq. destruct qq as [m g1]. destruct (appendS _ _ _ _) as [d g2]. bnd H qq. destruct qq as [rest g3]. injection H as <- _. cbn [List.length]. f_equal. eauto.
Qed.
Lemma cross_length : forall a b g p g', cross grow ords a b g = Ok (p, g') -> List.length p = List.length a * List.length b.
Proof. clear Hsel.
  intros a b. induction a as [|u a IH]; intros g p g' H; cbn [cross] in H; [now injection H as <- _|].
  bnd H qq. destruct qq as [x g1]. bnd H qq. destruct qq as [y g2]. injection H as <- _. rewrite app_length. cbn [List.length Nat.mul]. f_equal; [eapply crossOne_length|]; eauto.
Qed.
Lemma array_count : forall elem c, (forall g l g', elem g = Ok (l, g') -> List.length l <= c) ->
  forall n v g l g', arrayLoop grow ords sel elem n v g = Ok (l, g') -> List.length l <= c ^ n * List.length v.
Proof.
  intros elem c He. induction n as [|n IH]; intros v g l g' H; cbn [arrayLoop] in H; [injection H as <- _; cbn; lia|].
  bnd H qq. destruct qq as [w g1]. bnd H qq. destruct qq as [v1 g2]. apply He in E. apply cross_length in E0. cbn [select] in H. apply IH in H.
  pose proof (Hsel (calls g2) v1) as S. cbn [Nat.pow].
  assert (List.length v1 <= c * List.length v) by (rewrite E0; apply Nat.mul_le_mono_r; exact E).
  apply (Nat.le_trans _ _ _ H). rewrite <- Nat.mul_assoc, (Nat.mul_comm c), <- Nat.mul_assoc. apply Nat.mul_le_mono_l. lia.
Qed.

Section Body.
Variable fuel : nat.
Variable callS : struct -> gst -> outcome (list vec * gst).
Hypothesis Hcall : forall n s g l g', StructNonExtern r n = Ok s -> callS s g = Ok (l, g') -> List.length l <= k n.
Variable strct : struct.

Lemma int_count : forall nm sz cst g l g', intType r fuel nm sz cst g = Ok (l, g') -> List.length l = 1.
Proof. clear Hcall. clear Hsel.
  intros nm sz cst g l g' H. unfold intType in H. bnd H qq. destruct qq as [b g1]. destruct (vectorOf b g1) as [v g2]. now injection H as <- _.
Qed.
Lemma field_count : forall t nm g l g', plainArrays r k t = true -> field grow ords sel r fuel callS nm t g = Ok (l, g') -> List.length l <= countType r k t.
Proof.
  induction t as [sz cst| | | |n|b IH i|b IH c]; intros nm g l g' P H; cbn [field countType plainArrays] in *.
  - rewrite (int_count _ _ _ _ _ _ H). lia.
  - rewrite (int_count _ _ _ _ _ _ H). lia.
  - destruct (emptyVec g) as [v g1]. injection H as <- _. cbn. lia.
  - destruct (randnulterm 2 20 g) as [b g1]. destruct (vectorOf b g1) as [v g2]. injection H as <- _. cbn. lia.
  - bnd H qs. eapply Hcall; eauto.
  - destruct (emptyVec g) as [iv g1]. bnd H qn. apply (array_count _ (countType r k b)) in H; [cbn [List.length] in H; lia|]. intros. eapply IH; eauto.
  - destruct c as [[f|lo]|].
    + apply andb_true_iff in P as [P1 P2]. apply Nat.leb_le in P2. destruct (emptyVec g) as [iv g1]. destruct (randbtw 1 20 g1) as [d g2]. bnd H qq. destruct qq as [n g3].
      apply (array_count _ (countType r k b)) in H; [|intros; eapply IH; eauto]. cbn [List.length] in H. pose proof (pow_one _ (Z.to_nat n) P2). lia.
    + discriminate H.
    + destruct (emptyVec g) as [iv g1]. destruct (randbtw 1 20 g1) as [d g2] eqn:R. apply randbtw_spec in R as [R _]; [|lia].
      apply (array_count _ (countType r k b)) in H; [|intros; eapply IH; eauto]. cbn [List.length] in H.
      assert (countType r k b ^ Z.to_nat d <= countType r k b ^ 20) by (apply pow_le; lia). lia.
Qed.

Lemma prepend_length : forall v mvs g e g', prepend grow v mvs g = (e, g') -> List.length e = List.length mvs.
Proof. clear Hcall. clear Hsel.
  intros v mvs. induction mvs as [|mv mvs IH]; intros g e g' H; cbn [prepend] in H; [now injection H as <- _|].
  destruct (appendS _ _ _ _) as [d g1]. destruct (prepend grow v mvs g1) as [rest g2] eqn:E. injection H as <- _. cbn [List.length]. f_equal. eauto.
Qed.
Lemma extend_count : forall mem c, (forall g l g', mem g = Ok (l, g') -> List.length l <= c) ->
  forall vs g e g', extend grow mem vs g = Ok (e, g') -> List.length e <= c * List.length vs.
Proof. clear Hcall. clear Hsel.
  intros mem c Hm. induction vs as [|v vs IH]; intros g e g' H; cbn [extend] in H; [injection H as <- _; cbn; lia|].
  bnd H qq. destruct qq as [mvs g1]. destruct (prepend grow v mvs g1) as [x g2] eqn:P. bnd H qq. destruct qq as [rest g3]. injection H as <- _.
  apply Hm in E. apply prepend_length in P. apply IH in E0. rewrite app_length, P. cbn [List.length]. lia.
Qed.
Lemma lencon_count : forall f vs g l g', lenconstrain ords f vs g = Ok (l, g') -> List.length l <= List.length vs.
Proof. clear Hcall. clear Hsel.
  intros f vs. induction vs as [|v vs IH]; intros g l g' H; cbn [lenconstrain] in H; [injection H as <- _; cbn; lia|].
  bnd H qq. destruct qq as [c g1]. bnd H qq. destruct qq as [m g2]. bnd H qq. destruct qq as [rest g3]. injection H as <- _. apply IH in E1. rewrite app_length. cbn [List.length]. destruct (_ =? _)%Z; cbn [List.length]; lia.
Qed.

(** Branches are cases, each at most once. *)
Definition total (cnt : ucase -> nat) (cs : list ucase) : nat := list_sum (map cnt cs).
Lemma loop_total : forall cnt cs d dk bs d' dk', branchLoop r cs d dk = Ok (bs, d', dk') ->
  list_sum (map (fun b => cnt (bcase b)) bs) + match dk' with Some c => cnt c | None => 0 end <= total cnt cs + match dk with Some c => cnt c | None => 0 end.
Proof. clear Hcall. clear Hsel.
  intros cnt cs. induction cs as [|c cs IH]; intros d dk bs d' dk' H; cbn [branchLoop] in H; [injection H as <- <- <-; cbn; lia|].
  unfold total in *. cbn [map list_sum fold_right]. fold (list_sum (map cnt cs)). destruct (ucase_list c) as [l|].
  - bnd H q1. bnd H q2. bnd H qq. destruct qq as [[bs1 d1] k1]. injection H as <- <- <-. apply IH in E1. cbn [map list_sum fold_right bcase]. fold (list_sum (map (fun b => cnt (bcase b)) bs1)). lia.
  - apply IH in H. lia.
Qed.
Lemma branches_total : forall cnt tag cs bs, NewBranches r strct tag cs = Ok bs -> list_sum (map (fun b => cnt (bcase b)) bs) <= total cnt cs.
Proof. clear Hcall. clear Hsel.
  intros cnt tag cs bs H. unfold NewBranches in H. bnd H qq. destruct qq as [sz x]. bnd H q3. bnd H qq. destruct qq as [[bs1 d1] k1]. apply (loop_total cnt) in E1. injection H as <-.
  destruct k1 as [c|]; [|lia]. rewrite map_app, list_sum_app. cbn [map list_sum fold_right bcase]. lia.
Qed.
Lemma one_branch : forall (cnt : ucase -> nat) b bs, In b bs -> cnt (bcase b) <= list_sum (map (fun b => cnt (bcase b)) bs).
Proof. clear Hcall. clear Hsel.
  intros cnt b bs. induction bs as [|x bs IH]; intros I; [destruct I|]. cbn [map list_sum fold_right]. fold (list_sum (map (fun b => cnt (bcase b)) bs)). destruct I as [->|I]; [|apply IH in I]; lia.
Qed.
Lemma branches_sub : forall tag cs bs b, NewBranches r strct tag cs = Ok bs -> In b bs -> In (bcase b) cs.
Proof. clear Hcall. clear Hsel. intros tag cs bs b H I. pose proof (TvAlone.branches_cases r strct tag cs bs H) as F. rewrite Forall_forall in F. auto. Qed.

Lemma union_count : forall gen cnt tag base bs, (forall b ev g l g', In b bs -> gen (bcase b) [ev] g = Ok (l, g') -> List.length l <= cnt (bcase b)) ->
  forall g l g', unionLoop ords fuel gen tag base bs g = Ok (l, g') -> List.length l <= list_sum (map (fun b => cnt (bcase b)) bs).
Proof. clear Hcall. clear Hsel.
  intros gen cnt tag base bs. induction bs as [|b bs IH]; intros Hg g l g' H; cbn [unionLoop] in H; [injection H as <- _; cbn; lia|].
  bnd H qq. destruct qq as [c g1]. bnd H qq. destruct qq as [x g3]. bnd H qq. destruct qq as [y g4]. destruct (emptyVec g4) as [ev g5]. bnd H qq. destruct qq as [vs g6]. bnd H qq. destruct qq as [rest g7]. injection H as <- _.
  apply IH in E3; [|intros; eapply Hg; eauto; now right]. apply Hg in E2; [|now left]. rewrite app_length. cbn [map list_sum fold_right]. fold (list_sum (map (fun b => cnt (bcase b)) bs)). lia.
Qed.

Definition caseCount (c : ucase) : nat := countMembers r k (ucase_members c).
Lemma member_count : forall gen m, (forall c ev g l g', forallb (plainMember r k) (ucase_members c) = true -> gen c [ev] g = Ok (l, g') -> List.length l <= caseCount c) ->
  forall g l g', plainMember r k m = true -> gmember grow ords sel r fuel callS strct gen m g = Ok (l, g') -> List.length l <= countMember r k m.
Proof.
  intros gen m Hg g l g' P H. destruct m as [nm t|nm tag len cs| | |]; cbn [gmember countMember plainMember] in *.
  - eapply field_count; eauto.
  - assert (X : list_sum (map (fun c => match c with UCase _ ms => fold_right (fun m x => countMember r k m * x) 1 ms end) cs) = total caseCount cs).
    { unfold total. f_equal. apply map_ext. intros []. reflexivity. }
    rewrite X. bnd H l0. pose proof (branches_total caseCount _ _ _ E) as BT. pose proof (fun b => branches_sub _ _ _ b E) as BI.
    destruct (unionOptions l0 _) as [opts|] eqn:O; [|injection H as <- _; cbn; lia].
    assert (OI : forall b, In b opts -> In b l0). { intros b I. unfold unionOptions in O. destruct (cLookupRef _ _); [|congruence]. destruct (Lookup l0 z) as [b'|] eqn:L; [|discriminate]. injection O as <-. destruct I as [<-|[]]. unfold Lookup in L. apply find_some in L as [L _]. exact L. }
    assert (OT : list_sum (map (fun b => caseCount (bcase b)) opts) <= total caseCount cs).
    { unfold unionOptions in O. destruct (cLookupRef _ _); [|injection O as <-; exact BT]. destruct (Lookup l0 z) as [b'|] eqn:L; [|discriminate]. injection O as <-. cbn [map list_sum fold_right].
      pose proof (one_branch caseCount b' l0 (OI b' (or_introl eq_refl))). lia. }
    bnd H qq. destruct qq as [base g1]. bnd H qq. destruct qq as [res g2].
    apply (union_count _ caseCount) in E1.
    + destruct len as [[f|lo]|]; [apply lencon_count in H; lia|discriminate H|injection H as <- _; lia].
    + intros b ev g0 l1 g0' I. apply Hg. apply OI, BI in I. rewrite forallb_forall in P. specialize (P _ I). destruct (bcase b). exact P.
  - destruct (emptyVec g) as [a g1]. injection H as <- _. cbn. lia.
  - injection H as <- _. cbn. lia.
  - destruct (emptyVec g) as [a g1]. destruct (randbytes 1 7 g1) as [b g2]. destruct (vectorOf b g2) as [v g3]. injection H as <- _. cbn. lia.
Qed.
Lemma loop_count : forall mem ms, (forall m g l g', In m ms -> mem m g = Ok (l, g') -> List.length l <= countMember r k m) ->
  forall vs g l g', membersLoop grow sel mem ms vs g = Ok (l, g') -> List.length l <= countMembers r k ms * List.length vs.
Proof. clear Hcall.
  intros mem ms. induction ms as [|m ms IH]; intros Hm vs g l g' H; cbn [membersLoop] in H; [injection H as <- _; cbn; lia|].
  bnd H qq. destruct qq as [vs1 g1]. bnd H qq. destruct qq as [ext g2]. unfold select in H. injection H as <- _.
  apply IH in E; [|intros; eapply Hm; eauto; now right]. apply (extend_count _ (countMember r k m)) in E0; [|intros; eapply Hm; eauto; now left].
  pose proof (Hsel (calls g2) ext). cbn [countMembers fold_right]. fold (countMembers r k ms).
  apply (Nat.le_trans _ (countMember r k m * List.length vs1)); [lia|]. rewrite <- Nat.mul_assoc. now apply Nat.mul_le_mono_l.
Qed.
End Body.

Hypothesis Hk : forall n s, StructNonExtern r n = Ok s -> countMembers r k (members_of s) <= k n /\ forallb (plainMember r k) (members_of s) = true.

Lemma structure_count : forall gen c s, (forall v g l g', gen s (members_of s) [v] g = Ok (l, g') -> List.length l <= c) ->
  forall g l g', structureWith ords gen s g = Ok (l, g') -> List.length l <= c.
Proof. clear Hsel.
  intros gen c s Hg g l g' H. unfold structureWith in H. bnd H qq. destruct qq as [x g1]. destruct (newSlice [] g1) as [d g2]. bnd H qq. destruct qq as [vs g3]. injection H as <- _. eauto.
Qed.
Lemma members_count : forall n strct ms, forallb (plainMember r k) ms = true ->
  forall vs g l g', gmembers grow ords sel r n strct ms vs g = Ok (l, g') -> List.length l <= countMembers r k ms * List.length vs.
Proof.
  induction n as [|n IH]; intros strct ms P vs g l g' H; [discriminate H|]. cbn [gmembers] in H. revert H. apply (loop_count n (fun s g => Err "") strct).
  intros m g0 l0 g0' I. rewrite forallb_forall in P. apply (member_count n (structureWith ords (gmembers grow ords sel r n))).
  - intros nm s g1 l1 g1' N. destruct (Hk nm s N) as [K1 K2]. apply structure_count. intros v g2 l2 g2' H2. apply IH in H2; auto. cbn [List.length] in H2. lia.
  - intros c ev g1 l1 g1' P1 H1. apply IH in H1; auto. unfold caseCount. cbn [List.length] in H1. lia.
  - apply P. exact I.
Qed.
Lemma suites_count : forall n ss, (forall s, In s ss -> Extern s = false -> countMembers r k (members_of s) <= k (sname s) /\ forallb (plainMember r k) (members_of s) = true) ->
  forall g l g', suites grow ords sel r n ss g = Ok (l, g') -> forall u, In u l -> List.length (snd u) <= k (fst u).
Proof.
  intros n ss. induction ss as [|s ss IH]; intros Hs g l g' H u I; cbn [suites] in H; [injection H as <- _; destruct I|].
  destruct (Extern s) eqn:X; [eapply IH; eauto; intros; apply Hs; auto; now right|].
  destruct (newMap NewConstraints g) as [c g1]. bnd H qq. destruct qq as [vs g2]. bnd H qq. destruct qq as [rest g3]. injection H as <- _. destruct I as [<-|I].
  - destruct (Hs s (or_introl eq_refl) X) as [K1 K2]. cbn [fst snd]. revert E. unfold structure. apply structure_count. intros v g4 l4 g4' H4. apply members_count in H4; auto. cbn [List.length] in H4. lia.
  - eapply IH; eauto. intros; apply Hs; auto; now right.
Qed.
End Count.
