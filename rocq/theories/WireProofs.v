(** The decoder of GenDecode.v agrees with the format of WireSpec.v: what it
    accepts is an encoding. *)
From Coq Require Import ZArith String List Bool Lia ZifyBool ZifyNat.
From Verif Require Import Base Ast IntervalsModel InspectModel InspectSpec BranchProofs GoLang GenModel GenDecode GenCheck
  GenSim GenSimBody GenSimProg WireSpec.
Import ListNotations.
Open Scope string_scope.
Open Scope list_scope.
Open Scope Z_scope.
Ltac Zify.zify_post_hook ::= Z.div_mod_to_equations.

(** Small facts. *)
Lemma setField_assign : forall f v fs, setField f v fs = assign f v fs.
Proof. reflexivity. Qed.

Lemma blen_app : forall {A} (a b : list A), blen (a ++ b) = blen a + blen b.
Proof. intros. unfold blen. rewrite app_length. lia. Qed.
Lemma blen_nonneg : forall {A} (a : list A), 0 <= blen a.
Proof. intros. unfold blen. lia. Qed.
Lemma blen_cons : forall {A} (x : A) a, blen (x :: a) = 1 + blen a.
Proof. intros. unfold blen. cbn [List.length]. lia. Qed.
Lemma blen_nil : forall {A}, @blen A [] = 0.
Proof. reflexivity. Qed.
Lemma blen0 : forall {A} (a : list A), blen a = 0 -> a = [].
Proof. intros A [|x a]; auto. rewrite blen_cons. pose proof (blen_nonneg a). lia. Qed.

Lemma all_bytes_app : forall a b, all_bytes (a ++ b) <-> all_bytes a /\ all_bytes b.
Proof. intros. unfold all_bytes. apply Forall_app. Qed.
Lemma all_bytes_firstn : forall k c, all_bytes c -> all_bytes (firstn k c).
Proof. intros k c H. rewrite <- (firstn_skipn k c) in H. now apply all_bytes_app in H. Qed.
Lemma all_bytes_skipn : forall k c, all_bytes c -> all_bytes (skipn k c).
Proof. intros k c H. rewrite <- (firstn_skipn k c) in H. now apply all_bytes_app in H. Qed.

Lemma firstn_blen : forall {A} k (c : list A), 0 <= k -> k <= blen c -> blen (firstn (Z.to_nat k) c) = k.
Proof. intros A k c H0 H. unfold blen in *. rewrite firstn_length. lia. Qed.
Lemma skipn_blen : forall {A} k (c : list A), 0 <= k -> k <= blen c -> blen (skipn (Z.to_nat k) c) = blen c - k.
Proof. intros A k c H0 H. unfold blen in *. rewrite skipn_length. lia. Qed.
Lemma firstn_app_all : forall {A} (w t : list A), firstn (Z.to_nat (blen w)) (w ++ t) = w.
Proof. intros. unfold blen. rewrite Nat2Z.id, firstn_app, Nat.sub_diag, firstn_all. cbn. apply app_nil_r. Qed.
Lemma skipn_app_all : forall {A} (w t : list A), skipn (Z.to_nat (blen w)) (w ++ t) = t.
Proof. intros. unfold blen. rewrite Nat2Z.id, skipn_app, Nat.sub_diag, skipn_all. reflexivity. Qed.

Lemma be_snoc : forall w b, be (w ++ [b]) = 256 * be w + b.
Proof. intros. unfold be. rewrite fold_left_app. cbn [fold_left]. lia. Qed.
Lemma bigEndian_be : forall w, all_bytes w -> bigEndian w (be w).
Proof.
  intros w. induction w as [|b w IH] using rev_ind; intros H.
  - constructor.
  - apply all_bytes_app in H as [H1 H2]. rewrite be_snoc. constructor; auto. now inversion H2.
Qed.
Lemma bigEndian_unique : forall w x, bigEndian w x -> x = be w /\ all_bytes w.
Proof.
  intros w x H. induction H as [|w x b H [IH IB] B].
  - split; [reflexivity|constructor].
  - split; [rewrite be_snoc; lia|]. apply all_bytes_app. split; auto. constructor; auto.
Qed.
Lemma bigEndian_bound : forall w x, bigEndian w x -> 0 <= x < 2 ^ (8 * blen w).
Proof.
  intros w x H. induction H as [|w x b H IH B].
  - cbn. lia.
  - rewrite blen_app. change (blen [b]) with 1. replace (8 * (blen w + 1)) with (8 * blen w + 8) by lia.
    rewrite Z.pow_add_r by (pose proof (blen_nonneg w); lia). unfold is_byte in B. change (2 ^ 8) with 256. nia.
Qed.
Lemma bigEndian_inj : forall w x, bigEndian w x -> forall w', bigEndian w' x -> blen w = blen w' -> w = w'.
Proof.
  intros w x H. induction H as [|w x b H IH B]; intros w' H' L.
  - change (blen (@nil Z)) with 0 in L. symmetry in L. apply blen0 in L. auto.
  - remember (256 * x + b) as y eqn:Ey. destruct H' as [|w2 x2 b2 H2 B2].
    + rewrite blen_app in L. change (blen (@nil Z)) with 0 in L. change (blen [b]) with 1 in L. pose proof (blen_nonneg w). lia.
    + unfold is_byte in *. assert (x2 = x /\ b2 = b) as [-> ->] by lia.
      rewrite !blen_app in L. change (blen [b]) with 1 in L. rewrite (IH w2); auto. lia.
Qed.

Lemma s64_id : forall x, 0 <= x < two63 -> s64 x = x.
Proof. intros x H. unfold s64, two63, two64 in *. rewrite Z.mod_small by lia. destruct (Z.ltb_spec x 9223372036854775808); lia. Qed.

Lemma inList_spec : forall r x l, inList r x l = true <-> in_list (Constant r) l x.
Proof.
  intros r x l. unfold inList, in_list. rewrite existsb_exists. unfold inRange. split.
  - intros (g & I & H). destruct (range_bounds (Constant r) g) as [[a b]|] eqn:E; [|discriminate].
    exists g, a, b. repeat split; auto; lia.
  - intros (g & a & b & I & E & H). exists g. split; auto. rewrite E. lia.
Qed.

Lemma refVal_refers : forall camel cenv fs f x, refVal camel fs cenv f = Ok x <-> refers camel cenv fs f x.
Proof.
  intros. unfold refVal, refers. destruct (String.eqb (rscope f) "").
  - unfold asInt. destruct (alookup (camel (rname f)) fs) as [[]|]; split; intros H; try discriminate; congruence.
  - unfold asFields, asInt. split.
    + destruct (alookup (rscope f) cenv) as [[| | | |ty cf| | |]|]; try discriminate. cbn [bind]. intros H. exists ty, cf. split; auto.
      destruct (alookup (camel (rname f)) cf) as [[]|]; try discriminate. congruence.
    + intros (ty & cf & -> & E). cbn [bind]. now rewrite E.
Qed.

Lemma passes_args : forall cenv s cenv', passes cenv s cenv' <->
  exists args, ctxArgs cenv (scontexts s) = Ok args /\ cenv' = combine (scontexts s) args.
Proof.
  intros cenv s. unfold passes, ctxArgs. generalize (scontexts s). clear s. induction l as [|x l IH]; intros cenv'.
  - split.
    + intros H. inversion H. exists []. auto.
    + intros (args & E & ->). constructor.
  - split.
    + intros H. inversion H as [|? [y v] ? ? [E1 E2] H2]; subst. cbn [fst snd] in *.
      apply IH in H2 as (args & E & ->). exists (v :: args). cbn [mapM]. rewrite E2. cbn [bind]. rewrite E. auto.
    + intros (args & E & ->). cbn [mapM] in E. destruct (alookup x cenv) as [v|] eqn:EV; [|discriminate].
      cbn [bind] in E. apply bind_ok in E as (args' & E & E'). injection E' as <-. cbn [combine]. constructor; auto.
      apply IH. eauto.
Qed.

Lemma indexByte_found : forall c k, 0 <= k -> indexByte c 0 k = -1 /\ ~ In 0 c \/
  exists s t, c = s ++ 0 :: t /\ ~ In 0 s /\ indexByte c 0 k = k + blen s.
Proof.
  induction c as [|x c IH]; intros k K; cbn [indexByte].
  - left. auto.
  - destruct (Z.eqb_spec x 0) as [->|N].
    + right. exists [], c. split; auto. split; [auto|]. change (blen (@nil Z)) with 0. lia.
    + destruct (IH (k + 1)) as [[E NI]|(s & t & -> & NI & E)]; [lia| |].
      * left. split; auto. cbn. tauto.
      * right. exists (x :: s), t. split; auto. split; [cbn; tauto|]. rewrite E, blen_cons. lia.
Qed.
Lemma indexByte_none : forall s t k, 0 <= k -> ~ In 0 s -> indexByte (s ++ 0 :: t) 0 k = k + blen s.
Proof.
  induction s as [|x s IH]; intros t k K N; cbn [app indexByte].
  - cbn. change (blen (@nil Z)) with 0. lia.
  - destruct (Z.eqb_spec x 0) as [->|]; [exfalso; apply N; cbn; auto|]. rewrite IH by (cbn in N; tauto || lia).
    rewrite blen_cons. lia.
Qed.

(** A default there, a case taken. *)
Lemma oneDefaultb_spec : forall cs, oneDefaultb cs = true <-> one_default cs.
Proof.
  intros cs. unfold oneDefaultb, one_default. split.
  - intros H l1 c l2 d l3 -> Hc Hd. rewrite filter_app, app_length in H. cbn [filter] in H. rewrite Hc in H.
    cbn [List.length] in H. rewrite filter_app, app_length in H. cbn [filter] in H. rewrite Hd in H. cbn [List.length] in H.
    apply Nat.leb_le in H. lia.
  - intros H. apply Nat.leb_le. destruct (Nat.le_gt_cases (List.length (filter (fun c => match ucase_list c with None => true | Some _ => false end) cs)) 1) as [|G]; auto.
    exfalso. induction cs as [|c cs IH]; [cbn in G; lia|]. cbn [filter] in G. destruct (ucase_list c) as [l|] eqn:L.
    + apply IH; auto. intros l1 c1 l2 d l3 E Hc Hd. apply (H (c :: l1) c1 l2 d l3); auto. now rewrite E.
    + cbn [List.length] in G.
      destruct (filter (fun c => match ucase_list c with None => true | Some _ => false end) cs) as [|d ds] eqn:F; [cbn in G; lia|].
      assert (I : In d (filter (fun c => match ucase_list c with None => true | Some _ => false end) cs)) by (rewrite F; cbn; auto).
      apply filter_In in I as [I Hd]. apply in_split in I as (l2 & l3 & ->).
      apply (H [] c l2 d l3); auto. destruct (ucase_list d); [discriminate|auto].
Qed.

Section Fix.
Variable camel : string -> string.
Variable r : resolver.
Notation cv := (Constant r).
Notation sv := (Struct r).

(** Choosing a case. *)
Section Pick.
Variable dcall : string -> amap value -> bytes -> outcome (value * bytes).
Variable n : nat.
Variable cenv : amap value.
Variable dat : bytes.
Notation d := (blen dat).
Notation decMs := (decMembers camel r dcall n cenv d).
Notation dflt := (decDflt camel r dcall n cenv dat).
Notation pick := (decPick camel r dcall n cenv dat).

Lemma case_matches_dec : forall c x, case_matches cv c x \/ ~ case_matches cv c x.
Proof.
  intros [[l|] ms] x.
  - destruct (inList r x l) eqn:E.
    + left. exists l. split; auto. now apply inList_spec.
    + right. intros (l' & E' & H). cbn in E'. injection E' as <-. apply inList_spec in H. congruence.
  - right. intros (l' & E' & _). discriminate.
Qed.

Lemma dflt_spec : forall cs fs c,
  (exists cse, In cse cs /\ ucase_list cse = None /\ dflt cs fs c = decMs (ucase_members cse) fs c) \/
  Forall (fun cse => ucase_list cse <> None) cs /\ dflt cs fs c = Ok (fs, c).
Proof.
  induction cs as [|[[l|] ms] cs IH]; intros fs c; cbn.
  - right. split; auto.
  - destruct (IH fs c) as [(cse & I & E & H)|[F H]].
    + left. exists cse. auto.
    + right. split; auto. constructor; [discriminate|auto].
  - left. exists (UCase None ms). auto.
Qed.

Lemma pick_spec : forall all x fs c cs pre, all = pre ++ cs -> Forall (fun p => ~ case_matches cv p x) pre ->
  (exists cse, takes cv all x cse /\ pick all x cs fs c = decMs (ucase_members cse) fs c) \/
  (forall cse, ~ takes cv all x cse) /\ pick all x cs fs c = Ok (fs, c).
Proof.
  intros all x fs c. induction cs as [|[[l|] ms] cs IH]; intros pre E N.
  - cbn. destruct (dflt_spec all fs c) as [(cse & I & L & H)|[F H]]; rewrite H.
    + left. exists cse. split; auto. right. rewrite app_nil_r in E. subst pre. auto.
    + right. split; auto. rewrite app_nil_r in E. subst pre. intros cse [(p & q & -> & M & _)|(_ & I & L)].
      * apply Forall_app in N as [_ N]. apply Forall_inv in N. auto.
      * rewrite Forall_forall in F. apply (F cse); auto.
  - cbn [decPick]. change (decPick camel r dcall n cenv dat all x (UCase (Some l) ms :: cs) fs c) with
      (if inList r x l then decMs ms fs c else pick all x cs fs c).
    destruct (inList r x l) eqn:EL.
    + left. exists (UCase (Some l) ms). split; auto. left. exists pre, cs. split; auto. split; auto.
      exists l. split; auto. now apply inList_spec.
    + apply (IH (pre ++ [UCase (Some l) ms])).
      * now rewrite <- app_assoc.
      * apply Forall_app. split; auto. constructor; auto. intros (l' & E' & H). cbn in E'. injection E' as <-.
        apply inList_spec in H. congruence.
  - change (decPick camel r dcall n cenv dat all x (UCase None ms :: cs) fs c) with (pick all x cs fs c).
    apply (IH (pre ++ [UCase None ms])).
    * now rewrite <- app_assoc.
    * apply Forall_app. split; auto. constructor; auto. intros (l' & E' & H). discriminate.
Qed.
End Pick.

(** Soundness. *)
Section Sound.
Variable lenient : Prop.
Notation Enc := (enc camel cv sv lenient).
Notation EncN := (encN camel cv sv lenient).
Notation EncAll := (encAll camel cv sv lenient).
Notation EncM := (encM camel cv sv lenient).
Notation EncMs := (encMs camel cv sv lenient).

Section Body.
Variable dcall : string -> amap value -> bytes -> outcome (value * bytes).
Variable n : nat.
Variable cenv : amap value.
Variable dat : bytes.
Notation d := (blen dat).
Hypothesis Hd : blen dat < two63.
Hypothesis Hcall : forall nm s pos fs c v c', Struct r nm = Some s -> Extern s = false ->
  all_bytes c -> blen c < two63 -> dcall nm cenv c = Ok (v, c') ->
  exists w, c = w ++ c' /\ Enc cenv pos fs (TStruct nm) v w c'.

Definition okpos (free : bool) (pos : Z) (c : bytes) : Prop :=
  all_bytes c /\ blen c <= d /\ (free = true \/ pos = d - blen c).

Lemma okpos_next : forall b pos w c, okpos b pos (w ++ c) -> okpos b (pos + blen w) c.
Proof.
  intros b pos w c (A & L & P). apply all_bytes_app in A as [_ A]. rewrite blen_app in *.
  split; auto. split; [pose proof (blen_nonneg w); lia|]. destruct P as [P|P]; [auto|right; lia].
Qed.
Lemma okpos_tail : forall pos k c, okpos true pos c -> okpos true pos (firstn k c).
Proof.
  intros pos k c (A & L & P). split; [now apply all_bytes_firstn|]. split; auto.
  unfold blen in *. rewrite firstn_length. lia.
Qed.

Lemma int_sound : forall sz cst pos fs c v c', goodSize sz = true -> all_bytes c ->
  decInt r sz cst c = Ok (v, c') ->
  exists w x, c = w ++ c' /\ v = VInt x /\ bigEndian w x /\ blen w = sz / 8 /\ Enc cenv pos fs (TInt sz cst) v w c'.
Proof.
  intros sz cst pos fs c v c' G A H. unfold decInt in H.
  assert (S : 0 <= sz / 8) by (unfold goodSize in G; lia).
  destruct (Z.ltb_spec (blen c) (sz / 8)) as [|L]; [discriminate|].
  set (w := firstn (Z.to_nat (sz / 8)) c) in *.
  assert (BW : blen w = sz / 8) by (apply firstn_blen; auto).
  assert (BE : bigEndian w (be w)) by (apply bigEndian_be, all_bytes_firstn; auto).
  destruct (match cst with None => true | Some l => inList r (be w) l end) eqn:C; [|discriminate].
  injection H as <- <-. exists w, (be w). split; [symmetry; apply firstn_skipn|]. repeat split; auto.
  constructor; auto. intros l ->. now apply inList_spec.
Qed.

Lemma base_sound : forall t ctxs pos fs c v c', checkBase r ctxs t = true -> okpos (noPtrT t) pos c ->
  decBase r dcall cenv d t c = Ok (v, c') ->
  exists w, c = w ++ c' /\ Enc cenv pos fs t v w c'.
Proof.
  intros [sz cst| | | |nm|b i|b o] ctxs pos fs c v c' C (A & L & P) H; cbn [decBase checkBase noPtrT] in *; try discriminate.
  - unfold checkInt in C. apply andb_true_iff in C as [G _].
    destruct (int_sound sz cst pos fs c v c' G A H) as (w & x & E & _ & _ & _ & EN). eauto.
  - destruct (int_sound 8 None pos fs c v c' eq_refl A H) as (w & x & E & -> & B & BL & _).
    exists w. split; auto. constructor; auto.
  - injection H as <- <-. exists []. split; auto. destruct P as [P|P]; [discriminate|].
    rewrite <- P, s64_id by (pose proof (blen_nonneg c); lia). constructor.
  - unfold decNul in H. destruct (indexByte_found c 0) as [[E _]|(s & t & -> & NI & E)]; [lia| |]; rewrite E in H; [discriminate|].
    cbn zeta in H. pose proof (blen_nonneg s). pose proof (blen_nonneg t).
    rewrite blen_app, blen_cons in *. destruct (Z.ltb_spec (0 + blen s) 0); [lia|].
    rewrite s64_id in H by lia. destruct ((0 + blen s + 1 <? 0) || (blen s + (1 + blen t) <? 0 + blen s + 1)) eqn:BB; [discriminate|].
    rewrite Z.add_0_l in H. rewrite firstn_app_all in H. injection H as <- <-.
    exists (s ++ [0]). replace (s ++ 0 :: t) with ((s ++ [0]) ++ t) by (now rewrite <- app_assoc).
    replace (blen s + 1) with (blen (s ++ [0])) by (now rewrite blen_app). rewrite skipn_app_all. split; auto.
    constructor; auto.
  - destruct (Struct r nm) as [s|] eqn:ES; [|discriminate]. apply andb_true_iff in C as [C _].
    eapply Hcall; eauto; [now apply negb_true_iff|]. lia.
Qed.

Lemma for_sound : forall t ctxs fs m k pos c vs c', checkBase r ctxs t = true -> okpos (noPtrT t) pos c ->
  decFor r dcall cenv d m t k c = Ok (vs, c') ->
  exists w, c = w ++ c' /\ EncN cenv pos fs t vs w c' /\ (0 <= k -> blen vs = k).
Proof.
  intros t ctxs fs. induction m as [|m IH]; intros k pos c vs c' C P H; cbn [decFor] in H.
  - destruct (Z.leb_spec k 0); [|discriminate]. injection H as <- <-. exists []. split; auto. split; [constructor|].
    intros. change (blen (@nil value)) with 0. lia.
  - destruct (Z.leb_spec k 0) as [|K].
    + injection H as <- <-. exists []. split; auto. split; [constructor|]. intros. change (blen (@nil value)) with 0. lia.
    + apply bind_ok in H as ([v c1] & H1 & H). apply bind_ok in H as ([vs1 c2] & H2 & H). injection H as <- <-.
      destruct (base_sound t ctxs pos fs c v c1 C P H1) as (w1 & -> & E1).
      destruct (IH (k - 1) (pos + blen w1) c1 vs1 c2 C (okpos_next _ _ _ _ P) H2) as (w2 & -> & E2 & LE).
      exists (w1 ++ w2). split; [apply app_assoc|]. split; [constructor; auto|]. intros. rewrite blen_cons. lia.
Qed.

Lemma while_sound : forall t ctxs fs m pos c vs c', checkBase r ctxs t = true -> okpos (noPtrT t) pos c ->
  decWhile r dcall cenv d m t c = Ok (vs, c') -> c' = [] /\ EncAll cenv pos fs t vs c.
Proof.
  intros t ctxs fs. induction m as [|m IH]; intros pos c vs c' C P H; cbn [decWhile] in H.
  - destruct (Z.leb_spec (blen c) 0); [|discriminate]. injection H as <- <-.
    assert (c = []) by (apply blen0; pose proof (blen_nonneg c); lia). subst c. split; auto. constructor.
  - destruct (Z.leb_spec (blen c) 0) as [|K].
    + injection H as <- <-. assert (c = []) by (apply blen0; pose proof (blen_nonneg c); lia). subst c. split; auto. constructor.
    + apply bind_ok in H as ([v c1] & H1 & H). apply bind_ok in H as ([vs1 c2] & H2 & H). injection H as <- <-.
      destruct (base_sound t ctxs pos fs c v c1 C P H1) as (w1 & -> & E1).
      destruct (IH (pos + blen w1) c1 vs1 c2 C (okpos_next _ _ _ _ P) H2) as (-> & E2).
      split; auto. constructor; auto. intros E. rewrite E in *. change (blen (@nil Z)) with 0 in *. lia.
Qed.

Lemma within_sound : forall {A} k c (body : bytes -> outcome (A * bytes)) a c', decWithin k c body = Ok (a, c') ->
  exists w, c = w ++ c' /\ blen w = k /\ body w = Ok (a, []) /\ w = firstn (Z.to_nat k) c.
Proof.
  intros A k c body a c' H. unfold decWithin in H. destruct (Z.ltb_spec (blen c) k) as [|L]; [discriminate|].
  destruct (Z.ltb_spec k 0) as [|K]; [discriminate|]. apply bind_ok in H as ([a1 c1] & H1 & H).
  destruct (Z.ltb_spec 0 (blen c1)); [discriminate|]. injection H as <- <-.
  assert (c1 = []) by (apply blen0; pose proof (blen_nonneg c1); lia). subst c1.
  exists (firstn (Z.to_nat k) c). split; [symmetry; apply firstn_skipn|]. split; [now apply firstn_blen|]. auto.
Qed.
Lemma leaving_sound : forall {A} k c (body : bytes -> outcome (A * bytes)) a c', blen c <= d ->
  decLeaving k c body = Ok (a, c') ->
  exists w, c = w ++ c' /\ blen c' = k /\ body w = Ok (a, []) /\ exists j, w = firstn j c.
Proof.
  intros A k c body a c' L H. unfold decLeaving in H. destruct (Z.ltb_spec k 0); [discriminate|].
  destruct (Z.ltb_spec (blen c) k); [discriminate|]. pose proof (blen_nonneg c).
  rewrite s64_id in H by lia. apply within_sound in H as (w & E & LW & B & F). exists w. split; auto.
  split; [rewrite E, blen_app in LW; lia|]. split; auto. eexists. exact F.
Qed.

(** Integers in fields and contexts are 64-bit words, signed or not. *)
Definition wordv (v : value) : Prop := match v with VInt x => - two63 <= x < two64 | _ => True end.
Definition wordf (fs : amap value) : Prop := forall f v, alookup f fs = Some v -> wordv v.
Definition wordc (cenv : amap value) : Prop := forall x ty cf, alookup x cenv = Some (VStruct ty cf) -> wordf cf.

Lemma wordf_assign : forall f v fs, wordf fs -> wordv v -> wordf (assign f v fs).
Proof.
  intros f v fs W V g w H. rewrite alookup_assign in H. destruct (String.eqb g f); [|eauto].
  destruct (alookup f fs); [|discriminate]. now injection H as <-.
Qed.
Lemma word_ref : forall fs f x, wordf fs -> wordc cenv -> refVal camel fs cenv f = Ok x -> - two63 <= x < two64.
Proof.
  intros fs f x W C H. apply refVal_refers in H. unfold refers in H. destruct (String.eqb (rscope f) "").
  - apply (W _ _ H).
  - destruct H as (ty & cf & H1 & H2). apply (C _ _ _ H1 _ _ H2).
Qed.
Lemma s64_word : forall x, - two63 <= x < two64 -> 0 <= s64 x -> s64 x = x.
Proof. intros x H. unfold s64, two63, two64 in *. cbn zeta. destruct (Z.ltb_spec (x mod 18446744073709551616) 9223372036854775808); lia. Qed.
Lemma s64_range : forall x, - two63 <= s64 x < two63.
Proof. intros x. unfold s64, two63, two64 in *. cbn zeta. destruct (Z.ltb_spec (x mod 18446744073709551616) 9223372036854775808); lia. Qed.

Lemma pow_word : forall sz w, goodSize sz = true -> blen w = sz / 8 -> all_bytes w -> 0 <= be w < two64.
Proof.
  intros sz w G B A. pose proof (bigEndian_bound _ _ (bigEndian_be w A)) as BB. rewrite B in BB.
  unfold goodSize in G. assert (2 ^ (8 * (sz / 8)) <= two64); [|lia].
  assert (sz = 8 \/ sz = 16 \/ sz = 32 \/ sz = 64) as [-> | [-> | [-> | ->]]] by lia; vm_compute; discriminate.
Qed.

Lemma type_word : forall t ctxs k fs c v c', checkType r ctxs k t = true -> all_bytes c ->
  (forall nm, match dcall nm cenv c with Ok (VInt _, _) => False | _ => True end) ->
  decType camel r dcall n cenv d fs t c = Ok (v, c') -> wordv v.
Proof.
  intros t ctxs k fs c v c' C A NI H.
  assert (I : forall sz cst, goodSize sz = true -> decInt r sz cst c = Ok (v, c') -> wordv v).
  { intros sz cst G HI. destruct (int_sound sz cst 0 fs c v c' G A HI) as (w & x & -> & -> & B & BL & _).
    apply bigEndian_unique in B as [-> AW]. pose proof (pow_word sz w G BL AW). unfold wordv, two63. lia. }
  destruct t as [sz cst| | | |nm'|b i|b [[f|i]|]]; cbn [decType decBase] in H.
  - eapply I; eauto. cbn in C. unfold checkInt in C. now apply andb_true_iff in C.
  - eapply (I 8 None); eauto.
  - injection H as <- <-. unfold wordv. pose proof (s64_range (d - blen c)). unfold two63, two64 in *. lia.
  - unfold decNul in H. destruct (_ <? 0) in H; [discriminate|]. destruct (_ || _) in H; [discriminate|]. now injection H as <- <-.
  - specialize (NI nm'). rewrite H in NI. destruct v; auto. contradiction.
  - apply bind_ok in H as (z & Hz & H). apply bind_ok in H as ([vs c1] & H1 & H). now injection H as <- <-.
  - apply bind_ok in H as (z & Hz & H). apply bind_ok in H as (g & Hg & H). destruct (_ || _) in H; [discriminate|].
    apply bind_ok in H as ([vs c1] & H1 & H). now injection H as <- <-.
  - apply bind_ok in H as (z & Hz & H). unfold decLeaving in H. destruct (_ <? _) in H; [discriminate|].
    destruct (_ <? _) in H; [discriminate|]. apply within_sound in H as (w & _ & _ & H & _).
    apply bind_ok in H as ([vs c1] & H1 & H). now injection H as <- _.
  - apply bind_ok in H as ([vs c1] & H1 & H). now injection H as <- <-.
Qed.

(** A member at a position: no position fields in it, or the position is right. *)
Definition atpos (m : member) (pos : Z) (c : bytes) : Prop :=
  noPtrM m = true /\ okpos true pos c \/ ptrM m = true /\ okpos false pos c.

Lemma type_sound : forall t ctxs k pos fs c v c' nm, wordf fs -> wordc cenv -> checkType r ctxs k t = true ->
  atpos (MField nm t) pos c ->
  decType camel r dcall n cenv d fs t c = Ok (v, c') ->
  exists w, c = w ++ c' /\ Enc cenv pos fs t v w c'.
Proof.
  intros t ctxs k pos fs c v c' nm WF WC C P H.
  assert (P' : okpos (noPtrT t) pos c).
  { destruct P as [[P (A & L & _)]|[_ (A & L & [P|P])]]; [|discriminate|]; (split; [auto|]; split; [auto|]); auto. }
  destruct t as [sz cst| | | |nm'|b i|b [[f|i]|]].
  1,2,3,4,5: apply base_sound with (ctxs := ctxs); auto.
  - cbn [checkType decType noPtrT] in *. apply andb_true_iff in C as [C G]. apply bind_ok in H as (z & Hz & H).
    apply bind_ok in H as ([vs c1] & H1 & H). injection H as <- <-.
    destruct (for_sound b ctxs fs n z pos c vs c1 C P' H1) as (w & -> & E & LE).
    exists w. split; auto. apply integerOf_value in Hz. unfold goodCount in G. rewrite Hz in G.
    econstructor; eauto. apply LE. lia.
  - cbn [checkType decType noPtrT] in *. apply andb_true_iff in C as [C G]. apply bind_ok in H as (z & Hz & H).
    apply bind_ok in H as (g & Hg & H). destruct ((s64 z <? 0) || (maxAlloc <? s64 z * gsize g)) eqn:B; [discriminate|].
    apply bind_ok in H as ([vs c1] & H1 & H). injection H as <- <-.
    destruct (for_sound b ctxs fs n (s64 z) pos c vs c1 C P' H1) as (w & -> & E & LE).
    exists w. split; auto. constructor; auto. rewrite LE by lia. rewrite s64_word; [now apply refVal_refers| |lia].
    eapply word_ref; eauto.
  - cbn [checkType decType noPtrT] in *. apply andb_true_iff in C as [C G]. apply bind_ok in H as (z & Hz & H).
    pose proof P' as (A & L & PP). apply leaving_sound in H as (w & E & LE & H & (j & EJ)); auto.
    apply bind_ok in H as ([vs c1] & H1 & H). injection H as <- ->.
    assert (PB : okpos (noPtrT b) pos w).
    { subst w. assert (NB : noPtrT b = true) by (destruct P as [[P _]|[P _]]; auto).
      rewrite NB. apply okpos_tail. split; auto. }
    destruct (while_sound b ctxs fs n pos w vs [] C PB H1) as (_ & EA).
    exists w. split; auto. econstructor; eauto. now apply integerOf_value.
  - cbn [checkType decType noPtrT] in *. apply bind_ok in H as ([vs c1] & H1 & H). injection H as <- <-.
    destruct (while_sound b ctxs fs n pos c vs c1 C P' H1) as (-> & EA).
    exists c. split; [now rewrite app_nil_r|]. constructor. auto.
Qed.

(** Every union has a default. *)
Definition hasDefault (cs : list ucase) : bool :=
  existsb (fun c => match ucase_list c with None => true | Some _ => false end) cs.
Fixpoint totalM (m : member) : bool :=
  match m with
  | MUnion _ _ _ cs =>
      hasDefault cs && forallb (fun c => match c with UCase _ ms => forallb totalM ms end) cs
  | _ => true
  end.

Lemma hasDefault_takes : forall cs x, hasDefault cs = true -> exists c, takes cv cs x c.
Proof.
  intros cs x H. destruct (pick_spec (fun _ _ _ => OutOfFuel) 0 [] [] cs x [] [] cs [] eq_refl (Forall_nil _))
    as [(c & T & _)|[N _]]; [eauto|]. exfalso.
  unfold hasDefault in H. apply existsb_exists in H as (c & I & L). destruct (ucase_list c) eqn:LC; [discriminate|].
  assert (F : Forall (fun p => ~ case_matches cv p x) cs \/ exists pre p post, cs = pre ++ p :: post /\ case_matches cv p x /\ Forall (fun p => ~ case_matches cv p x) pre).
  { clear. induction cs as [|c cs IH]; [auto|]. destruct (case_matches_dec c x) as [M|M].
    - right. exists [], c, cs. auto.
    - destruct IH as [IH|(pre & p & post & -> & A & B)]; [auto|]. right. exists (c :: pre), p, post. auto. }
  destruct F as [F|(pre & p & post & E & M & F)].
  - apply (N c). right. auto.
  - apply (N p). left. eauto.
Qed.

Hypothesis Hnoint : forall nm c, match dcall nm cenv c with Ok (VInt _, _) => False | _ => True end.
Hypothesis Hwc : wordc cenv.

Definition msound (m : member) : Prop := forall ctxs k pos fs c fs' c', wordf fs -> checkMember r ctxs k m = true ->
  lenient \/ totalM m = true -> atpos m pos c ->
  decMember camel r dcall n cenv d m fs c = Ok (fs', c') ->
  wordf fs' /\ exists w, c = w ++ c' /\ EncM cenv pos m fs w c' fs'.

Definition allpos (ms : list member) (pos : Z) (c : bytes) : Prop :=
  forallb noPtrM ms = true /\ okpos true pos c \/ forallb ptrM ms = true /\ okpos false pos c.

Lemma members_sound : forall ms, Forall msound ms -> forall ctxs k pos fs c fs' c', wordf fs ->
  checkMembers r ctxs k ms = true -> lenient \/ forallb totalM ms = true -> allpos ms pos c ->
  decMembers camel r dcall n cenv d ms fs c = Ok (fs', c') ->
  wordf fs' /\ exists w, c = w ++ c' /\ EncMs cenv pos ms fs w c' fs'.
Proof.
  induction ms as [|m ms IH]; intros F ctxs k pos fs c fs' c' W C T P H; cbn [decMembers] in H.
  - injection H as <- <-. split; auto. exists []. split; auto. constructor.
  - apply bind_ok in H as ([fs1 c1] & H1 & H). cbn [checkMembers] in C. apply andb_true_iff in C as [C1 C2].
    assert (P1 : atpos m pos c /\ forall w, c = w ++ c1 -> allpos ms (pos + blen w) c1).
    { unfold atpos, allpos in *. cbn [forallb] in P.
      destruct P as [[P1 P2]|[P1 P2]]; apply andb_true_iff in P1 as [P1 P3]; (split; [auto|]); intros w ->;
      apply okpos_next in P2; auto. }
    destruct P1 as [P1 P2].
    destruct (Forall_inv F ctxs k pos fs c fs1 c1) as (W1 & w1 & -> & E1); auto.
    { destruct T as [T|T]; auto. cbn in T. apply andb_true_iff in T. tauto. }
    destruct (IH (Forall_inv_tail F) ctxs (addKnown k m) (pos + blen w1) fs1 c1 fs' c') as (W2 & w2 & -> & E2); auto.
    { destruct T as [T|T]; auto. cbn in T. apply andb_true_iff in T. tauto. }
    split; auto. exists (w1 ++ w2). split; [apply app_assoc|]. econstructor; eauto.
Qed.

Lemma pick_sound : forall cs, Forall (fun c => Forall msound (ucase_members c)) cs ->
  forall ctxs k pos x fs c fs' c', wordf fs ->
  forallb (fun c => match c with UCase l ms => match l with None => true | Some l' => definedList r l' end && checkMembers r ctxs k ms end) cs = true ->
  lenient \/ hasDefault cs && forallb (fun c => match c with UCase _ ms => forallb totalM ms end) cs = true ->
  (forall cse, In cse cs -> allpos (ucase_members cse) pos c) ->
  decPick camel r dcall n cenv dat cs x cs fs c = Ok (fs', c') ->
  wordf fs' /\ exists w, c = w ++ c' /\ encCase camel cv sv lenient cenv pos cs x fs w c' fs'.
Proof.
  intros cs F ctxs k pos x fs c fs' c' W C T P H.
  destruct (pick_spec dcall n cenv dat cs x fs c cs [] eq_refl (Forall_nil _)) as [(cse & TK & E)|[N E]]; rewrite E in H.
  - assert (I : In cse cs) by (destruct TK as [(p & q & -> & _)|(_ & I & _)]; auto; apply in_or_app; cbn; auto).
    rewrite Forall_forall in F. rewrite forallb_forall in C. specialize (C _ I).
    destruct cse as [l ms]. cbn [ucase_members] in *. apply andb_true_iff in C as [_ C].
    destruct (members_sound ms (F _ I) ctxs k pos fs c fs' c') as (W' & w & -> & E'); auto.
    { destruct T as [T|T]; auto. apply andb_true_iff in T as [_ T]. rewrite forallb_forall in T. right. apply (T _ I). }
    { apply (P _ I). }
    split; auto. exists w. split; auto. eapply EncCase_taken; eauto.
  - injection H as <- <-. split; auto. exists []. split; auto. apply EncCase_none; auto.
    destruct T as [T|T]; auto. apply andb_true_iff in T as [T _]. exfalso.
    destruct (hasDefault_takes cs x T) as [cse TK]. apply (N _ TK).
Qed.

Lemma member_sound : forall m, msound m.
Proof.
  induction m as [nm t|u tag len cs IH| | |] using member_ind'; intros ctxs k pos fs c fs' c' W C T P H.
  - cbn [decMember] in H. apply bind_ok in H as ([v c1] & H1 & H). injection H as <- <-. cbn [checkMember] in C.
    assert (A : all_bytes c) by (destruct P as [[_ P]|[_ P]]; apply P).
    split; [apply wordf_assign; auto; apply (type_word t ctxs k fs c v c1); auto; intros; apply Hnoint|].
    destruct (type_sound t ctxs k pos fs c v c1 nm) as (w & -> & E); auto.
    exists w. split; auto. change (assign (camel nm) v fs) with (setField (camel nm) v fs). constructor. auto.
  - rewrite decMember_union in H. cbn zeta in H. cbn [checkMember] in C.
    change (forallb _ cs) with (forallb (fun c => match c with UCase l ms => match l with None => true | Some l' => definedList r l' end && kfix r ctxs k ms end) cs) in C.
    apply andb_true_iff in C as [C C3]. apply andb_true_iff in C as [C1 C2].
    assert (C3' : forallb (fun c => match c with UCase l ms => match l with None => true | Some l' => definedList r l' end && checkMembers r ctxs k ms end) cs = true).
    { rewrite forallb_forall in *. intros [l ms] I. specialize (C3 _ I). cbn beta iota in C3. now rewrite kfix_eq in C3. }
    cbn [totalM] in T.
    assert (PI : forall c0, (len = None -> c0 = c) -> (exists j, c0 = firstn j c) ->
       forall cse, In cse cs -> allpos (ucase_members cse) pos c0).
    { intros c0 L0 (j & ->) [l ms] I. unfold allpos. cbn [ucase_members]. destruct P as [[P1 P2]|[P1 P2]].
      - left. split; [|now apply okpos_tail]. cbn [noPtrM] in P1. rewrite forallb_forall in P1. apply (P1 _ I).
      - cbn [ptrM] in P1. destruct len as [lc|].
        + left. split.
          * assert (P1' : forallb (fun c => match c with UCase _ ms => forallb noPtrM ms end) cs = true) by (destruct lc; exact P1).
            rewrite forallb_forall in P1'. apply (P1' _ I).
          * apply okpos_tail. destruct P2 as (A & L & _). split; auto.
        + right. rewrite L0 by auto. split; auto. rewrite forallb_forall in P1. apply (P1 _ I). }
    assert (D : blen c <= d) by (destruct P as [[_ P]|[_ P]]; apply P).
    destruct len as [[f|i]|]; cbn [decConstr] in H.
    + apply bind_ok in H as (z & Hz & H). apply within_sound in H as (w & E & LW & H & EW).
      apply bind_ok in H as (x & Hx & H).
      assert (Z0 : s64 z = z) by (apply s64_word; [eapply word_ref; eauto|rewrite <- LW; apply blen_nonneg]).
      rewrite Z0 in *. clear Z0. 
      destruct (pick_sound cs IH ctxs k pos x fs w fs' []) as (W' & w' & E' & EC); auto.
      { apply PI; [discriminate|eauto]. }
      rewrite app_nil_r in E'. subst w'. split; auto. exists w. split; auto.
      apply refVal_refers in Hx, Hz. econstructor; eauto. now rewrite LW.
    + apply bind_ok in H as (z & Hz & H). apply leaving_sound in H as (w & E & LW & H & EW); auto.
      apply bind_ok in H as (x & Hx & H).
      destruct (pick_sound cs IH ctxs k pos x fs w fs' []) as (W' & w' & E' & EC); auto.
      { apply PI; [discriminate|eauto]. }
      rewrite app_nil_r in E'. subst w'. split; auto. exists w. split; auto.
      apply refVal_refers in Hx. apply integerOf_value in Hz. econstructor; eauto.
    + apply bind_ok in H as (x & Hx & H).
      destruct (pick_sound cs IH ctxs k pos x fs c fs' c') as (W' & w' & E' & EC); auto.
      { apply PI; auto. exists (List.length c). now rewrite firstn_all. }
      split; auto. exists w'. split; auto. apply refVal_refers in Hx. econstructor; eauto.
  - cbn [decMember] in H. destruct (Z.ltb_spec 0 (blen c)); [discriminate|]. injection H as <- <-.
    assert (c = []) by (apply blen0; pose proof (blen_nonneg c); lia). subst c. split; auto. exists []. split; auto. constructor.
  - discriminate.
  - cbn [decMember] in H. injection H as <- <-. split; auto. exists c. rewrite app_nil_r. split; auto. constructor.
Qed.
End Body.
End Sound.

(** Declared fields. *)
Definition declared (f : string * type) (g : string * gtype) : Prop :=
  fst g = camel (fst f) /\ tipe camel r (snd f) = Ok (snd g).
Definition membersDecl := fix membersDecl (ms : list member) : outcome (list (string * gtype)) :=
  match ms with
  | [] => Ok []
  | MFail :: ms' | MIgnore :: ms' => membersDecl ms'
  | m :: ms' => a <- memberDecl camel r m ;; b <- membersDecl ms' ;; Ok (a ++ b)
  end.
Definition casesDecl := fix casesDecl (cs : list ucase) : outcome (list (string * gtype)) :=
  match cs with
  | [] => Ok []
  | UCase _ ms :: cs' => d <- membersDecl ms ;; rest <- casesDecl cs' ;; Ok (d ++ rest)
  end.
Lemma memberDecl_union : forall u tag len cs, memberDecl camel r (MUnion u tag len cs) = casesDecl cs.
Proof. reflexivity. Qed.
Lemma membersDecl_cons : forall m ms, membersDecl (m :: ms) =
  (a <- (match m with MFail | MIgnore => Ok [] | _ => memberDecl camel r m end) ;; b <- membersDecl ms ;; Ok (a ++ b)).
Proof. intros [] ms; cbn [membersDecl bind]; auto; destruct (membersDecl ms); reflexivity. Qed.

Lemma memberDecl_declared : forall m ds, memberDecl camel r m = Ok ds -> Forall2 declared (allFields m) ds.
Proof.
  induction m as [nm t|u tag len cs IH| | |] using member_ind'; intros ds H.
  - cbn [memberDecl] in H. apply bind_ok in H as (g & Hg & H). injection H as <-. constructor; [split; auto|constructor].
  - rewrite memberDecl_union in H. cbn [allFields]. revert ds H. induction cs as [|[l ms] cs IHcs]; intros ds H.
    + injection H as <-. constructor.
    + cbn [casesDecl] in H. apply bind_ok in H as (d1 & H1 & H). apply bind_ok in H as (d2 & H2 & H). injection H as <-.
      cbn [flat_map]. apply Forall2_app; [|apply IHcs; auto; eapply Forall_inv_tail; eauto].
      pose proof (Forall_inv IH) as F. cbn [ucase_members] in F. clear - F H1. revert d1 H1.
      induction ms as [|m ms IHms]; intros d1 H.
      * injection H as <-. constructor.
      * rewrite membersDecl_cons in H. apply bind_ok in H as (a & Ha & H). apply bind_ok in H as (b & Hb & H). injection H as <-.
        cbn [flat_map]. apply Forall2_app; [|apply IHms; auto; eapply Forall_inv_tail; eauto].
        destruct m; try (apply (Forall_inv F); exact Ha); injection Ha as <-; constructor.
  - injection H as <-. constructor.
  - discriminate.
  - discriminate.
Qed.
Lemma structDecl_declared : forall s ds, structDecl camel r s = Ok ds ->
  Forall2 declared (flat_map allFields (members_of s)) ds.
Proof.
  intros s ds H. unfold structDecl in H. apply bind_ok in H as (dss & H & E). injection E as <-.
  revert dss H. generalize (members_of s). induction l as [|m ms IH]; intros dss H; cbn [mapM] in H.
  - injection H as <-. constructor.
  - apply bind_ok in H as (d & Hd & H). apply bind_ok in H as (dss' & Hds & H). injection H as <-.
    cbn [flat_map concat]. apply Forall2_app; [now apply memberDecl_declared|]. auto.
Qed.
Lemma zero_blank : forall t g, tipe camel r t = Ok g -> zero g = blankOf cv t.
Proof.
  induction t as [sz cst| | | |nm|b IH i|b IH o]; intros g H; cbn [tipe] in H; try (injection H as <-; reflexivity).
  - apply bind_ok in H as (z & Hz & H). apply bind_ok in H as (g1 & Hg & H). injection H as <-. cbn [zero blankOf].
    apply integerOf_value in Hz. rewrite Hz, (IH _ Hg). reflexivity.
  - apply bind_ok in H as (g1 & Hg & H). injection H as <-. reflexivity.
Qed.
Lemma zeros_blank : forall s ds, structDecl camel r s = Ok ds -> zeros ds = blank camel cv s.
Proof.
  intros s ds H. apply structDecl_declared in H. unfold zeros, blank.
  induction H as [|[f t] [g gt] fs gs [E T] F IH]; auto. cbn [map fst snd] in *. rewrite IH, E. f_equal. f_equal.
  now apply zero_blank.
Qed.
Lemma blank_word : forall s, wordf (blank camel cv s).
Proof.
  intros s f v H. apply alookup_some_in in H. unfold blank in H. apply in_map_iff in H as ([f' t] & E & _).
  injection E as <- <-. unfold wordv. cbn [snd]. destruct t; cbn [blankOf]; auto; unfold two63, two64; lia.
Qed.

(** A checked declaration can be declared in Go. *)
Lemma tipe_ok : forall t ctxs k, checkType r ctxs k t = true -> exists g, tipe camel r t = Ok g.
Proof.
  assert (B : forall t ctxs, checkBase r ctxs t = true -> exists g, tipe camel r t = Ok g).
  { intros [] ctxs H; cbn [tipe]; eauto; discriminate. }
  assert (G : forall i, goodCount r i = true -> exists z, integerOf r i = Ok z).
  { intros i H. unfold goodCount in H. destruct (int_value cv i) as [z|] eqn:E; [|discriminate].
    exists z. now apply integerOf_value. }
  intros t ctxs k H. destruct t as [sz cst| | | |nm|b i|b [[f|i]|]]; cbn [checkType] in H;
    try (apply B with (ctxs := ctxs); exact H); cbn [tipe].
  - apply andb_true_iff in H as [H1 H2]. destruct (G _ H2) as [z ->]. destruct (B _ _ H1) as [g ->]. cbn [bind]. eauto.
  - apply andb_true_iff in H as [H1 H2]. destruct (B _ _ H1) as [g ->]. cbn [bind]. eauto.
  - apply andb_true_iff in H as [H1 H2]. destruct (B _ _ H1) as [g ->]. cbn [bind]. eauto.
  - destruct (B _ _ H) as [g ->]. cbn [bind]. eauto.
Qed.
Lemma membersDecl_ok : forall ms, Forall (fun m => forall ctxs k, checkMember r ctxs k m = true -> topMember m = true -> exists ds, memberDecl camel r m = Ok ds) ms ->
  forall ctxs k, checkMembers r ctxs k ms = true -> exists ds, membersDecl ms = Ok ds.
Proof.
  induction ms as [|m ms IH]; intros F ctxs k C; [cbn; eauto|]. cbn [checkMembers] in C. apply andb_true_iff in C as [C1 C2].
  rewrite membersDecl_cons. destruct (IH (Forall_inv_tail F) _ _ C2) as [b ->].
  assert (X : exists a, match m with MFail | MIgnore => Ok [] | _ => memberDecl camel r m end = Ok a).
  { pose proof (Forall_inv F _ _ C1) as H. destruct m; eauto. }
  destruct X as [a ->]. cbn [bind]. eauto.
Qed.
Lemma memberDecl_ok : forall m ctxs k, checkMember r ctxs k m = true -> topMember m = true -> exists ds, memberDecl camel r m = Ok ds.
Proof.
  induction m as [nm t|u tag len cs IH| | |] using member_ind'; intros ctxs k C T; try discriminate; [| |cbn; eauto].
  - cbn [memberDecl checkMember] in *. destruct (tipe_ok _ _ _ C) as [g ->]. cbn [bind]. eauto.
  - rewrite memberDecl_union. cbn [checkMember] in C.
    change (forallb _ cs) with (forallb (fun c => match c with UCase l ms => match l with None => true | Some l' => definedList r l' end && kfix r ctxs k ms end) cs) in C.
    apply andb_true_iff in C as [_ C]. clear - C IH. induction cs as [|[l ms] cs IHcs]; [cbn; eauto|].
    cbn [forallb casesDecl] in *. apply andb_true_iff in C as [C1 C2]. apply andb_true_iff in C1 as [_ C1]. rewrite kfix_eq in C1.
    destruct (membersDecl_ok ms (Forall_inv IH) _ _ C1) as [a ->]. destruct (IHcs (Forall_inv_tail IH) C2) as [b ->]. cbn [bind]. eauto.
Qed.
Lemma structDecl_ok : forall s, checkStruct camel r s = true -> exists ds, structDecl camel r s = Ok ds.
Proof.
  intros s CS. unfold checkStruct in CS.
  apply andb_true_iff in CS as [CS SC]. apply andb_true_iff in CS as [CS CX].
  apply andb_true_iff in CS as [CS ND]. apply andb_true_iff in CS as [CT CM]. apply andb_true_iff in CT as [CT _].
  unfold structDecl. generalize (@nil (string * Z)) CM. clear CM. revert CT. generalize (members_of s).
  induction l as [|m ms IH]; intros CT k CM; cbn [mapM]; [cbn; eauto|].
  cbn [forallb checkMembers] in *. apply andb_true_iff in CT as [T1 T2]. apply andb_true_iff in CM as [C1 C2].
  destruct (memberDecl_ok _ _ _ C1 T1) as [d ->]. destruct (IH T2 _ C2) as [ds H]. apply bind_ok in H as (dss & H & _).
  cbn [bind]. rewrite H. cbn [bind]. eauto.
Qed.

(** Whole structs. *)
Section Structs.
Variable lenient : Prop.
Hypothesis Hstr : forall nm s, Struct r nm = Some s -> Extern s = false ->
  checkStruct camel r s = true /\ forallb ptrM (members_of s) = true /\
  (lenient \/ forallb totalM (members_of s) = true).

Lemma ctxs_word : forall cenv ns args, wordc cenv -> ctxArgs cenv ns = Ok args -> wordc (combine ns args).
Proof.
  intros cenv ns args W H x ty cf E. apply (W x ty cf). revert args H E. unfold ctxArgs.
  induction ns as [|y ns IH]; intros args H E; cbn [mapM] in H.
  - injection H as <-. discriminate.
  - destruct (alookup y cenv) as [v|] eqn:EV; [|discriminate]. cbn [bind] in H.
    apply bind_ok in H as (args' & H & H'). injection H' as <-. cbn [combine alookup] in E.
    destruct (String.eqb_spec x y) as [->|]; [congruence|eauto].
Qed.
Lemma checked_members : forall s, checkStruct camel r s = true -> checkMembers r (scontexts s) [] (members_of s) = true.
Proof.
  intros s CS. unfold checkStruct in CS.
  apply andb_true_iff in CS as [CS SC]. apply andb_true_iff in CS as [CS CX].
  apply andb_true_iff in CS as [CS ND]. apply andb_true_iff in CS as [CT CM]. auto.
Qed.
Lemma call_noint : forall m nm cenv c, match decCall camel r m nm cenv c with Ok (VInt _, _) => False | _ => True end.
Proof.
  intros m nm cenv c. destruct m; cbn [decCall]; destruct (Struct r nm) as [s|]; cbn; auto;
    destruct (structDecl camel r s); cbn; auto; destruct (ctxArgs cenv (scontexts s)); cbn; auto.
  destruct (decMembers _ _ _ _ _ _ _ _ _) as [[]| | |]; cbn; auto.
Qed.

Lemma struct_sound0 : forall s fs m cenv c fs' c', checkStruct camel r s = true -> forallb ptrM (members_of s) = true ->
  lenient \/ forallb totalM (members_of s) = true ->
  (forall nm s cenv pos fs c v c', Struct r nm = Some s -> Extern s = false -> wordc cenv ->
     all_bytes c -> blen c < two63 -> decCall camel r m nm cenv c = Ok (v, c') ->
     exists w, c = w ++ c' /\ enc camel cv sv lenient cenv pos fs (TStruct nm) v w c') ->
  wordc cenv -> wordf fs -> all_bytes c -> blen c < two63 ->
  decMembers camel r (decCall camel r m) m cenv (blen c) (members_of s) fs c = Ok (fs', c') ->
  exists w, c = w ++ c' /\ encMs camel cv sv lenient cenv 0 (members_of s) fs w c' fs'.
Proof.
  intros s fs m cenv c fs' c' CS PT TT HC WC WF A L H.
  destruct (members_sound lenient (decCall camel r m) m cenv c (members_of s))
    with (ctxs := scontexts s) (k := @nil (string * Z)) (pos := 0) (fs := fs) (c := c) (fs' := fs') (c' := c')
    as (_ & w & E); eauto.
  - apply Forall_forall. intros mm _. apply member_sound; auto.
    + intros. eapply HC; eauto.
    + intros. apply call_noint.
  - now apply checked_members.
  - right. split; auto. split; auto. split; [lia|]. right. lia.
Qed.

Lemma call_sound : forall m nm s cenv pos fs c v c', Struct r nm = Some s -> Extern s = false -> wordc cenv ->
  all_bytes c -> blen c < two63 -> decCall camel r m nm cenv c = Ok (v, c') ->
  exists w, c = w ++ c' /\ enc camel cv sv lenient cenv pos fs (TStruct nm) v w c'.
Proof.
  induction m as [|m IH]; intros nm s cenv pos fs c v c' HS HE WC A L H; cbn [decCall] in H; rewrite HS in H;
    apply bind_ok in H as (ds & Hds & H); apply bind_ok in H as (args & Ha & H); [discriminate|].
  apply bind_ok in H as ([fs1 c1] & H & E). injection E as <- <-.
  destruct (Hstr _ _ HS HE) as (C1 & C2 & C3). rewrite (zeros_blank _ _ Hds) in H.
  apply struct_sound0 in H as (w & -> & E); auto.
  - exists w. split; auto. econstructor; eauto. apply passes_args. eauto.
  - eapply ctxs_word; eauto.
  - apply blank_word.
Qed.

Theorem struct_sound : forall m s fs cenv c fs' c', checkStruct camel r s = true -> forallb ptrM (members_of s) = true ->
  lenient \/ forallb totalM (members_of s) = true -> wordc cenv -> wordf fs -> all_bytes c -> blen c < two63 ->
  decStruct camel r m s fs cenv c = Ok (fs', c') ->
  exists w, c = w ++ c' /\ encStruct camel cv sv lenient cenv s fs w c' fs'.
Proof.
  intros [|m] s fs cenv c fs' c' C1 C2 C3 WC WF A L H; [discriminate|]. cbn [decStruct] in H.
  eapply struct_sound0 in H; eauto. intros. eapply call_sound; eauto.
Qed.
End Structs.
End Fix.
