(** Test vectors consist of bytes. *)
From Coq Require Import ZArith String List Bool Lia ZifyBool ZifyNat.
From Verif Require Import Base Ast IntervalsModel InspectModel WireSpec WireProofs TvModel.
Import ListNotations.
Open Scope string_scope.
Open Scope list_scope.
Open Scope Z_scope.

Lemma bind_ok : forall {A B} (x : outcome A) (f : A -> outcome B) b, bind x f = Ok b -> exists a, x = Ok a /\ f a = Ok b.
Proof. intros A B [a|e|m|] f b H; cbn in H; try discriminate. eauto. Qed.

(** All arrays consist of bytes. *)
Definition bytesG (g : gst) : Prop := Forall all_bytes (bufs g).

Lemma bytesG_nth : forall g i, bytesG g -> all_bytes (nth i (bufs g) []).
Proof.
  intros g i H. destruct (Nat.lt_ge_cases i (List.length (bufs g))) as [L|L].
  - unfold bytesG in H. rewrite Forall_forall in H. apply H. now apply nth_In.
  - rewrite nth_overflow by auto. constructor.
Qed.
Lemma bytesG_read : forall g s, bytesG g -> all_bytes (readS g s).
Proof. intros g s H. apply all_bytes_firstn, bytesG_nth, H. Qed.
Lemma Forall_setNth : forall {A} (P : A -> Prop) n x l, Forall P l -> P x -> Forall P (setNth n x l).
Proof.
  intros A P n x l H X. unfold setNth. rewrite <- (firstn_skipn n l) in H. apply Forall_app in H as [H1 H2]. apply Forall_app. split; auto.
  destruct (skipn n l); auto. inversion H2; subst. constructor; auto.
Qed.
Lemma bytesG_vector : forall b g v g', vectorOf b g = (v, g') -> bytesG g -> all_bytes b -> bytesG g'.
Proof.
  intros b g v g' E H B. unfold vectorOf, newSlice in E. injection E as <- <-. apply Forall_app. split; auto.
Qed.
Lemma bytesG_empty : forall g v g', emptyVec g = (v, g') -> bytesG g -> bytesG g'.
Proof. intros g v g' E H. eapply bytesG_vector; eauto. constructor. Qed.

(** * The random source *)
Lemma randRead_bytes : forall n g b g', randRead n g = (b, g') -> all_bytes b /\ bufs g' = bufs g.
Proof.
  induction n as [|n IH]; intros g b g' E; cbn [randRead] in E.
  - injection E as <- <-. split; [constructor|auto].
  - unfold Intn, draw in E. set (h := setRnd _ g) in E. destruct (randRead n h) as [bs g2] eqn:R. injection E as <- <-.
    destruct (IH _ _ _ R) as (B & C). split; [|rewrite C; reflexivity]. constructor; auto. apply Z.mod_pos_bound. lia.
Qed.
Lemma randbtw_bufs : forall a b g n g', randbtw a b g = (n, g') -> bufs g' = bufs g.
Proof. intros a b g n g' E. unfold randbtw, Intn, draw in E. injection E as <- <-. reflexivity. Qed.
Lemma randbytes_bytes : forall a b g bs g', randbytes a b g = (bs, g') -> all_bytes bs /\ bufs g' = bufs g.
Proof.
  intros a b g bs g' E. unfold randbytes in E. destruct (randbtw a b g) as [n g1] eqn:B. apply randbtw_bufs in B.
  apply randRead_bytes in E as (X & Y). split; congruence.
Qed.
Lemma randLetters_bytes : forall n g b g', randLetters n g = (b, g') -> all_bytes b /\ bufs g' = bufs g.
Proof.
  induction n as [|n IH]; intros g b g' E; cbn [randLetters] in E.
  - injection E as <- <-. split; [constructor|auto].
  - unfold Intn, draw in E. set (h := setRnd _ g) in E. destruct (randLetters n h) as [bs g2] eqn:R.
    assert (0 <= draws (rnd g) (rpos (rnd g)) mod 26 < 26) as D by (apply Z.mod_pos_bound; lia).
    assert (b = 97 + draws (rnd g) (rpos (rnd g)) mod 26 :: bs /\ g' = g2) as (-> & ->) by (split; congruence).
    destruct (IH _ _ _ R) as (B & C). split; [|rewrite C; reflexivity]. constructor; auto. unfold is_byte. lia.
Qed.
Lemma randnulterm_bytes : forall a b g bs g', randnulterm a b g = (bs, g') -> all_bytes bs /\ bufs g' = bufs g.
Proof.
  intros a b g bs g' E. unfold randnulterm in E. destruct (randbtw a b g) as [n g1] eqn:B. apply randbtw_bufs in B.
  destruct (randLetters (Z.to_nat n) g1) as [s g2] eqn:L. injection E as <- <-. apply randLetters_bytes in L as (X & Y).
  split; [|congruence]. apply all_bytes_app. split; auto. constructor; [unfold is_byte; lia|constructor].
Qed.
Lemma lowBytes_bytes : forall n x, all_bytes (lowBytes n x).
Proof.
  induction n as [|n IH]; intros x; cbn [lowBytes]; [constructor|]. apply all_bytes_app. split; auto.
  constructor; [apply Z.mod_pos_bound; lia|constructor].
Qed.

Section Bytes.
Variable grow : nat -> nat -> nat.
Variable ords : nat -> uorders.
Variable sel : nat -> list vec -> list vec.
Variable r : resolver.

Lemma append_bytes : forall a b g s g', appendS grow a b g = (s, g') -> bytesG g -> all_bytes b -> bytesG g'.
Proof.
  intros a b g s g' E H B. unfold appendS in E. pose proof (bytesG_nth g (sbuf a) H) as O.
  destruct (_ <=? _)%nat; injection E as <- <-; unfold bytesG; cbn [bufs].
  - apply Forall_setNth; auto. apply all_bytes_app. split; [now apply all_bytes_firstn|]. apply all_bytes_app. split; auto. now apply all_bytes_skipn.
  - apply Forall_app. split; auto. constructor; auto. apply all_bytes_app. split; [now apply all_bytes_firstn|]. apply all_bytes_app. split; auto.
    apply Forall_forall. intros x X. apply repeat_spec in X. subst. unfold is_byte. lia.
Qed.
Lemma clone_bufs : forall i g j g', cloneMap ords i g = Ok (j, g') -> bufs g' = bufs g.
Proof. intros i g j g' E. unfold cloneMap in E. apply bind_ok in E as (c & _ & E). injection E as <- <-. reflexivity. Qed.
Lemma cloneGlobal_bufs : forall i g j g', cloneGlobalMap ords i g = Ok (j, g') -> bufs g' = bufs g.
Proof. intros i g j g' E. unfold cloneGlobalMap in E. apply bind_ok in E as (c & _ & E). injection E as <- <-. reflexivity. Qed.
Lemma merge_bufs : forall i k g j g', mergeMaps ords i k g = Ok (j, g') -> bufs g' = bufs g.
Proof. intros i k g j g' E. unfold mergeMaps in E. apply bind_ok in E as (c & _ & E). injection E as <- <-. reflexivity. Qed.
Lemma create_bufs : forall i f v g u g', lookupOrCreate i f v g = Ok (u, g') -> bufs g' = bufs g.
Proof. intros i f v g u g' E. unfold lookupOrCreate in E. apply bind_ok in E as ([u' c] & _ & E). injection E as <- <-. reflexivity. Qed.
Lemma random_bufs : forall fuel s g x g', randomIn fuel s g = Ok (x, g') -> bufs g' = bufs g.
Proof. intros fuel s g x g' E. unfold randomIn in E. apply bind_ok in E as ([y rn] & _ & E). injection E as <- <-. reflexivity. Qed.

Definition keepsBytes (f : gst -> outcome (list vec * gst)) : Prop := forall g vs g', f g = Ok (vs, g') -> bytesG g -> bytesG g'.

Lemma crossOne_bytes : forall u b, keepsBytes (crossOne grow ords u b).
Proof.
  intros u b. induction b as [|w b IH]; intros g vs g' E H; cbn [crossOne] in E.
  - injection E as <- <-. auto.
  - apply bind_ok in E as ([m g1] & E1 & E). destruct (appendS grow (vdata u) (readS g1 (vdata w)) g1) as [d g2] eqn:A.
    apply bind_ok in E as ([rest g3] & E2 & E). injection E as <- <-. eapply IH; [eauto|].
    assert (B : bytesG g1) by (unfold bytesG; now rewrite (merge_bufs _ _ _ _ _ E1)).
    eapply append_bytes; eauto. now apply bytesG_read.
Qed.
Lemma cross_bytes : forall a b, keepsBytes (cross grow ords a b).
Proof.
  induction a as [|u a IH]; intros b g vs g' E H; cbn [cross] in E.
  - injection E as <- <-. auto.
  - apply bind_ok in E as ([p g1] & E1 & E). apply bind_ok in E as ([q g2] & E2 & E). injection E as <- <-.
    eapply IH; [eauto|]. eapply crossOne_bytes; eauto.
Qed.
Lemma arrayLoop_bytes : forall elem, keepsBytes elem -> forall n v, keepsBytes (arrayLoop grow ords sel elem n v).
Proof.
  intros elem He. induction n as [|n IH]; intros v g vs g' E H; cbn [arrayLoop] in E.
  - injection E as <- <-. auto.
  - apply bind_ok in E as ([w g1] & E1 & E). apply bind_ok in E as ([v1 g2] & E2 & E). unfold select in E.
    eapply IH; [eauto|]. change (bytesG g2). eapply cross_bytes; eauto.
Qed.
Lemma intType_bytes : forall fuel nm sz cst, keepsBytes (intType r fuel nm sz cst).
Proof.
  intros fuel nm sz cst g vs g' E H. unfold intType in E. apply bind_ok in E as ([b g1] & E1 & E).
  destruct (vectorOf b g1) as [v g2] eqn:V. injection E as <- <-.
  assert (all_bytes b /\ bufs g1 = bufs g) as (B & EB).
  { destruct (cLookup _ _ _) as [x|].
    - injection E1 as <- <-. split; [apply lowBytes_bytes|auto].
    - destruct cst as [l|].
      + apply bind_ok in E1 as (s & _ & E1). apply bind_ok in E1 as ([x g3] & E3 & E1). injection E1 as <- <-.
        split; [apply lowBytes_bytes|]. eapply random_bufs; eauto.
      + injection E1 as E1. unfold randint in E1. eapply randRead_bytes; eauto. }
  eapply bytesG_vector; eauto. unfold bytesG. now rewrite EB.
Qed.

Section Body.
Variable fuel : nat.
Variable callS : struct -> gst -> outcome (list vec * gst).
Hypothesis Hcall : forall s, keepsBytes (callS s).
Variable strct : struct.

Lemma field_bytes : forall t nm, keepsBytes (field grow ords sel r fuel callS nm t).
Proof.
  induction t as [sz cst| | | |n|b IH i|b IH len]; intros nm g vs g' E H; cbn [field] in E.
  - eapply intType_bytes; eauto.
  - eapply intType_bytes; eauto.
  - destruct (emptyVec g) as [v g1] eqn:V. injection E as <- <-. eapply bytesG_empty; eauto.
  - destruct (randnulterm 2 20 g) as [b g1] eqn:R. destruct (vectorOf b g1) as [v g2] eqn:V. injection E as <- <-.
    apply randnulterm_bytes in R as (B & EB). eapply bytesG_vector; eauto. unfold bytesG. now rewrite EB.
  - apply bind_ok in E as (s & _ & E). eapply Hcall; eauto.
  - destruct (emptyVec g) as [v g1] eqn:V. apply bind_ok in E as (n & _ & E). eapply arrayLoop_bytes; [apply IH|eauto|].
    eapply bytesG_empty; eauto.
  - destruct len as [[f|k]|]; [| discriminate|];
      destruct (emptyVec g) as [v g1] eqn:V; destruct (randbtw 1 20 g1) as [n g2] eqn:R; apply randbtw_bufs in R;
      pose proof (bytesG_empty _ _ _ V H) as H1.
    + apply bind_ok in E as ([m g3] & E3 & E). eapply arrayLoop_bytes; [apply IH|eauto|].
      unfold bytesG. rewrite (create_bufs _ _ _ _ _ _ E3), R. exact H1.
    + eapply arrayLoop_bytes; [apply IH|eauto|]. unfold bytesG. rewrite R. exact H1.
Qed.
Lemma prepend_bytes : forall v mvs g vs g', prepend grow v mvs g = (vs, g') -> bytesG g -> bytesG g'.
Proof.
  intros v. induction mvs as [|mv mvs IH]; intros g vs g' E H; cbn [prepend] in E.
  - injection E as <- <-. auto.
  - destruct (appendS grow (vdata mv) (readS g (vdata v)) g) as [d g1] eqn:A. destruct (prepend grow v mvs g1) as [rest g2] eqn:P.
    injection E as <- <-. eapply IH; eauto. eapply append_bytes; eauto. now apply bytesG_read.
Qed.
Lemma extend_bytes : forall mem, keepsBytes mem -> forall vs, keepsBytes (extend grow mem vs).
Proof.
  intros mem Hm. induction vs as [|v vs IH]; intros g l g' E H; cbn [extend] in E.
  - injection E as <- <-. auto.
  - apply bind_ok in E as ([mvs g1] & E1 & E). destruct (prepend grow v mvs g1) as [e g2] eqn:P.
    apply bind_ok in E as ([rest g3] & E3 & E). injection E as <- <-. eapply IH; [eauto|]. eapply prepend_bytes; [eauto|]. eapply Hm; eauto.
Qed.
Lemma lenconstrain_bytes : forall f vs, keepsBytes (lenconstrain ords f vs).
Proof.
  intros f. induction vs as [|v vs IH]; intros g l g' E H; cbn [lenconstrain] in E.
  - injection E as <- <-. auto.
  - apply bind_ok in E as ([c g1] & E1 & E). apply bind_ok in E as ([m g2] & E2 & E). apply bind_ok in E as ([rest g3] & E3 & E).
    injection E as <- <-. eapply IH; [eauto|]. unfold bytesG. rewrite (create_bufs _ _ _ _ _ _ E2), (clone_bufs _ _ _ _ E1). exact H.
Qed.
Lemma unionLoop_bytes : forall gen, (forall c vs, keepsBytes (gen c vs)) -> forall tag base bs, keepsBytes (unionLoop ords fuel gen tag base bs).
Proof.
  intros gen Hg tag base. induction bs as [|b bs IH]; intros g l g' E H; cbn [unionLoop] in E.
  - injection E as <- <-. auto.
  - apply bind_ok in E as ([c g1] & E1 & E). apply bind_ok in E as ([x g3] & E3 & E). apply bind_ok in E as ([y g4] & E4 & E).
    destruct (emptyVec g4) as [ev g5] eqn:V. apply bind_ok in E as ([vs g6] & E6 & E). apply bind_ok in E as ([rest g7] & E7 & E).
    injection E as <- <-. eapply IH; [eauto|]. eapply Hg; [eauto|]. eapply bytesG_empty; [eauto|].
    unfold bytesG. rewrite (create_bufs _ _ _ _ _ _ E4), (random_bufs _ _ _ _ _ E3). cbn [bufs setCur]. rewrite (clone_bufs _ _ _ _ E1). exact H.
Qed.
Lemma gmember_bytes : forall gen, (forall c vs, keepsBytes (gen c vs)) -> forall m, keepsBytes (gmember grow ords sel r fuel callS strct gen m).
Proof.
  intros gen Hg m g vs g' E H. destruct m as [nm t|u tag len cs| | |]; cbn [gmember] in E.
  - eapply field_bytes; eauto.
  - apply bind_ok in E as (bs & _ & E). destruct (unionOptions bs _) as [opts|]; [|injection E as <- <-; auto].
    apply bind_ok in E as ([base g1] & E1 & E). apply bind_ok in E as ([res g2] & E2 & E).
    assert (B : bytesG g2). { eapply unionLoop_bytes; [eauto|eauto|]. unfold bytesG. rewrite (clone_bufs _ _ _ _ E1). exact H. }
    destruct len as [[f|k]|]; [eapply lenconstrain_bytes; eauto|discriminate|injection E as <- <-; auto].
  - destruct (emptyVec g) as [v g1] eqn:V. injection E as <- <-. eapply bytesG_empty; eauto.
  - injection E as <- <-. auto.
  - destruct (emptyVec g) as [a g1] eqn:V. destruct (randbytes 1 7 g1) as [b g2] eqn:R. destruct (vectorOf b g2) as [v g3] eqn:W.
    injection E as <- <-. apply randbytes_bytes in R as (B & EB). eapply bytesG_vector; eauto. unfold bytesG. rewrite EB. eapply bytesG_empty; eauto.
Qed.
Lemma membersLoop_bytes : forall mem, (forall m, keepsBytes (mem m)) -> forall ms vs, keepsBytes (membersLoop grow sel mem ms vs).
Proof.
  intros mem Hm. induction ms as [|m ms IH]; intros vs g l g' E H; cbn [membersLoop] in E.
  - injection E as <- <-. auto.
  - apply bind_ok in E as ([vs1 g1] & E1 & E). apply bind_ok in E as ([ext g2] & E2 & E). injection E as <- <-.
    change (bytesG g2). eapply extend_bytes; [apply Hm|eauto|]. eapply IH; eauto.
Qed.
End Body.

Lemma clears_bufs : forall vs g, bufs (fold_left (fun g v => clearMap (vcons v) g) vs g) = bufs g.
Proof. induction vs as [|v vs IH]; intros g; cbn [fold_left]; auto. rewrite IH. reflexivity. Qed.
Lemma structureWith_bytes : forall gen, (forall s ms vs, keepsBytes (gen s ms vs)) -> forall s, keepsBytes (structureWith ords gen s).
Proof.
  intros gen Hg s g vs g' E H. unfold structureWith in E. apply bind_ok in E as ([c g1] & E1 & E).
  destruct (newSlice [] g1) as [d g2] eqn:N. apply bind_ok in E as ([ws g3] & E3 & E). injection E as <- <-.
  unfold bytesG. rewrite clears_bufs. change (bytesG g3). eapply Hg; [eauto|]. injection N as <- <-. apply Forall_app. split; [|repeat constructor].
  rewrite (cloneGlobal_bufs _ _ _ _ E1). exact H.
Qed.
Lemma gmembers_bytes : forall n s ms vs, keepsBytes (gmembers grow ords sel r n s ms vs).
Proof.
  induction n as [|n IH]; intros s ms vs; [intros g l g' E; discriminate|].
  cbn [gmembers]. apply membersLoop_bytes. intros m. apply gmember_bytes; auto. apply structureWith_bytes. auto.
Qed.
Lemma suites_bytes : forall n ss g l g', suites grow ords sel r n ss g = Ok (l, g') -> bytesG g -> bytesG g'.
Proof.
  intros n. induction ss as [|s ss IH]; intros g l g' E H; cbn [suites] in E.
  - injection E as <- <-. auto.
  - destruct (Extern s); [eapply IH; eauto|]. destruct (newMap NewConstraints g) as [c g1] eqn:N.
    apply bind_ok in E as ([vs g2] & E2 & E). apply bind_ok in E as ([rest g3] & E3 & E). injection E as <- <-.
    eapply IH; [eauto|]. eapply structureWith_bytes; [apply gmembers_bytes|eauto|]. injection N as <- <-. exact H.
Qed.
End Bytes.

Theorem vectors_bytes : forall grow ords sel os n fs rn c, GenerateFiles grow ords sel os n fs rn = Ok c ->
  Forall (fun u => Forall (fun v => all_bytes (fst v)) (svectors u)) c.
Proof.
  intros grow ords sel os n fs rn c E. unfold GenerateFiles in E. apply bind_ok in E as (r & _ & E).
  apply bind_ok in E as ([ss g] & E1 & E). injection E as <-. apply suites_bytes in E1; [|constructor].
  apply Forall_forall. intros u U. apply in_map_iff in U as (x & <- & _). cbn [svectors].
  apply Forall_forall. intros v V. apply in_map_iff in V as (w & <- & _). now apply bytesG_read.
Qed.
