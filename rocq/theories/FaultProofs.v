(** Every error and every panic of a parse comes from a visited place. *)
From Coq Require Import ZArith String List Bool Lia ZifyBool ZifyNat.
From Verif Require Import Base Ast IntervalsModel InspectModel InspectSpec BranchProofs GoLang GenModel GenDecode GenCheck
  GenSim GenSimBody GenSimProg WireSpec WireProofs WireComplete GenTerm WireFacts ReachSpec ReachProofs.
Import ListNotations.
Open Scope string_scope.
Open Scope list_scope.
Open Scope Z_scope.
Ltac Zify.zify_post_hook ::= Z.div_mod_to_equations.

Section Fault.
Variable camel : string -> string.
Variable r : resolver.
Notation cv := (Constant r).
Notation sv := (Struct r).
Notation EncN := (encN camel cv sv True).
Notation EncMs := (encMs camel cv sv True).
Variable cenv0 : amap value.
Variable s0 : struct.
Variable fs0 : amap value.
Variable data : bytes.
Notation Visits := (visits camel cv sv True cenv0 s0 fs0 data).

(** A visited place with the fault [x]. *)
Definition found (x : stop) : Prop := exists cenv pos pl fs c, Visits cenv pos pl fs c /\
  match x with
  | Fails e => faulty camel cv sv True cenv pos pl fs c e
  | Panics m => bursting camel cenv pl fs c m
  end.
Definition real (x : stop) : Prop := x <> Panics "ill-typed".

Lemma bind_stop : forall {A B} (o : outcome A) (k : A -> outcome B) x, bind o k = stopO x ->
  o = stopO x \/ exists a, o = Ok a /\ k a = stopO x.
Proof. intros A B [a|e|m|] k x H; cbn [bind] in H; eauto; destruct x; cbn in *; auto; try discriminate; left; congruence. Qed.
Lemma ok_stop : forall {A} (a : A) x, Ok a = stopO x -> False.
Proof. intros A a [e|m]; discriminate. Qed.
Lemma stuck_stop : forall {A} x, @stuck A = stopO x -> real x -> False.
Proof. intros A [e|m] H R; cbn in H; [discriminate|]. unfold stuck in H. injection H as <-. now apply R. Qed.
Lemma err_stop : forall {A} e x, @Err A e = stopO x -> x = Fails e.
Proof. intros A e [e'|m] H; cbn in H; [now injection H as ->|discriminate]. Qed.
Lemma panic_stop : forall {A} e x, @Panic A e = stopO x -> x = Panics e.
Proof. intros A e [e'|m] H; cbn in H; [discriminate|now injection H as ->]. Qed.
Lemma fuel_stop : forall {A} x, @OutOfFuel A = stopO x -> False.
Proof. intros A [e|m]; discriminate. Qed.
Lemma ref_stop : forall fs cenv f x, refVal camel fs cenv f = stopO x -> real x -> False.
Proof.
  intros fs cenv f x H R. unfold refVal, asInt, asFields in H.
  destruct (String.eqb (rscope f) "").
  - destruct (alookup (camel (rname f)) fs) as [[]|]; try (eapply stuck_stop; eassumption); eapply ok_stop; eassumption.
  - apply bind_stop in H as [H|(cf & _ & H)].
    + destruct (alookup (rscope f) cenv) as [[]|]; try (eapply stuck_stop; eassumption); eapply ok_stop; eassumption.
    + destruct (alookup (camel (rname f)) cf) as [[]|]; try (eapply stuck_stop; eassumption); eapply ok_stop; eassumption.
Qed.

Section Body.
Variable dcall : string -> amap value -> bytes -> outcome (value * bytes).
Variable n : nat.
Variable cenv : amap value.
Variable dat : bytes.
Notation d := (blen dat).
Hypothesis Hd : blen dat < two63.
Hypothesis Hcall : forall nm s pos fs c v c', Struct r nm = Some s -> Extern s = false ->
  all_bytes c -> blen c < two63 -> dcall nm cenv c = Ok (v, c') ->
  exists w, c = w ++ c' /\ enc camel cv sv True cenv pos fs (TStruct nm) v w c'.
Hypothesis Hnoint : forall nm c, match dcall nm cenv c with Ok (VInt _, _) => False | _ => True end.
Hypothesis Hwc : wordc cenv.
Hypothesis Hbad : forall nm s pos fs c x, Struct r nm = Some s -> Extern s = false ->
  all_bytes c -> blen c < two63 -> dcall nm cenv c = stopO x -> real x -> Visits cenv pos (AtType (TStruct nm)) fs c -> found x.

Notation okpos := (okpos dat).

Lemma base_found : forall t ctxs pos fs c x, checkBase r ctxs t = true -> okpos (noPtrT t) pos c ->
  decBase r dcall cenv d t c = stopO x -> real x -> Visits cenv pos (AtType t) fs c -> found x.
Proof.
  assert (INT : forall sz cst t pos fs c x, goodSize sz = true -> all_bytes c -> (t = TInt sz cst \/ t = TChar /\ sz = 8 /\ cst = None) ->
    decInt r sz cst c = stopO x -> Visits cenv pos (AtType t) fs c -> found x).
  { intros sz cst t pos fs c x G A T H V. unfold decInt in H.
    assert (S : 0 <= sz / 8) by (unfold goodSize in G; lia).
    destruct (Z.ltb_spec (blen c) (sz / 8)) as [L|L].
    - apply err_stop in H as ->. exists cenv, pos, (AtType t), fs, c. split; auto.
      destruct T as [->|(-> & -> & ->)]; [now constructor|].
      assert (c = []) by (apply blen0; change (8 / 8) with 1 in L; pose proof (blen_nonneg c); lia). subst c. constructor.
    - cbn zeta in H. set (w := firstn (Z.to_nat (sz / 8)) c) in *.
      destruct cst as [l|]; [|exfalso; eapply ok_stop; exact H].
      destruct (inList r (be w) l) eqn:EI; [exfalso; eapply ok_stop; exact H|]. apply err_stop in H as ->.
      destruct T as [->|(_ & _ & T)]; [|discriminate].
      exists cenv, pos, (AtType (TInt sz (Some l))), fs, c. split; auto.
      rewrite <- (firstn_skipn (Z.to_nat (sz / 8)) c). apply F_constraint with (x := be w).
      + apply bigEndian_be, all_bytes_firstn; auto.
      + apply firstn_blen; auto.
      + intros I. apply inList_spec in I. congruence. }
  intros [sz cst| | | |nm|b i|b o] ctxs pos fs c x C (A & L & P) H R V; cbn [decBase checkBase noPtrT] in *; try discriminate.
  - unfold checkInt in C. apply andb_true_iff in C as [G _]. eapply INT; eauto.
  - eapply (INT 8 None TChar); eauto.
  - exfalso. eapply ok_stop; exact H.
  - unfold decNul in H. destruct (indexByte_found c 0) as [[E NI]|(s & t & -> & NI & E)]; [lia| |]; rewrite E in H.
    + apply err_stop in H as ->. exists cenv, pos, (AtType TNul), fs, c. split; auto. now constructor.
    + cbn zeta in H. pose proof (blen_nonneg s). pose proof (blen_nonneg t).
      rewrite blen_app, blen_cons in *. destruct (Z.ltb_spec (0 + blen s) 0); [lia|].
      rewrite s64_id in H by lia.
      destruct ((0 + blen s + 1 <? 0) || (blen s + (1 + blen t) <? 0 + blen s + 1)) eqn:BB; [lia|].
      exfalso. eapply ok_stop; exact H.
  - destruct (Struct r nm) as [s|] eqn:ES; [|discriminate]. apply andb_true_iff in C as [C _].
    eapply Hbad; eauto; [now apply negb_true_iff|]. lia.
Qed.

Notation base_sound := (base_sound camel r True dcall cenv dat Hd Hcall).
Lemma for_found : forall t ctxs fs m k pos c x, checkBase r ctxs t = true -> okpos (noPtrT t) pos c ->
  decFor r dcall cenv d m t k c = stopO x -> exists vs w c', c = w ++ c' /\ EncN cenv pos fs t vs w c' /\ blen vs < k /\
    decBase r dcall cenv d t c' = stopO x /\ okpos (noPtrT t) (pos + blen w) c'.
Proof.
  intros t ctxs fs. induction m as [|m IH]; intros k pos c x C P H; cbn [decFor] in H;
    (destruct (Z.leb_spec k 0) as [|K]; [exfalso; eapply ok_stop; exact H|]).
  - exfalso. eapply fuel_stop; exact H.
  - apply bind_stop in H as [H|([v c1] & H1 & H)].
    + exists [], [], c. split; auto. split; [constructor|]. split; [rewrite blen_nil; auto|]. split; auto.
      now apply (okpos_next dat _ pos []).
    + apply bind_stop in H as [H|([vs1 c2] & H2 & H)]; [|exfalso; eapply ok_stop; exact H].
      destruct (base_sound t ctxs pos fs c v c1 C P H1) as (w1 & -> & E1).
      destruct (IH (k - 1) (pos + blen w1) c1 x C (okpos_next _ _ _ _ _ P) H) as (vs & w2 & c' & -> & E2 & LT & D & PP).
      exists (v :: vs), (w1 ++ w2), c'. split; [apply app_assoc|]. split; [constructor; auto|]. split; [rewrite blen_cons; lia|].
      split; auto. now rewrite blen_app, Z.add_assoc.
Qed.
Lemma while_found : forall t ctxs fs m pos c x, checkBase r ctxs t = true -> okpos (noPtrT t) pos c ->
  decWhile r dcall cenv d m t c = stopO x -> exists vs w c', c = w ++ c' /\ EncN cenv pos fs t vs w c' /\ c' <> [] /\
    decBase r dcall cenv d t c' = stopO x /\ okpos (noPtrT t) (pos + blen w) c'.
Proof.
  intros t ctxs fs. induction m as [|m IH]; intros pos c x C P H; cbn [decWhile] in H;
    (destruct (Z.leb_spec (blen c) 0) as [|K]; [exfalso; eapply ok_stop; exact H|]).
  - exfalso. eapply fuel_stop; exact H.
  - apply bind_stop in H as [H|([v c1] & H1 & H)].
    + exists [], [], c. split; auto. split; [constructor|]. split; [intros ->; cbn in K; lia|]. split; auto.
      now apply (okpos_next dat _ pos []).
    + apply bind_stop in H as [H|([vs1 c2] & H2 & H)]; [|exfalso; eapply ok_stop; exact H].
      destruct (base_sound t ctxs pos fs c v c1 C P H1) as (w1 & -> & E1).
      destruct (IH (pos + blen w1) c1 x C (okpos_next _ _ _ _ _ P) H) as (vs & w2 & c' & -> & E2 & LT & D & PP).
      exists (v :: vs), (w1 ++ w2), c'. split; [apply app_assoc|]. split; [constructor; auto|]. split; auto.
      split; auto. now rewrite blen_app, Z.add_assoc.
Qed.

(** Extents: too long, negative, left with bytes, or the fault is inside. *)
Lemma within_found : forall {A} k c (body : bytes -> outcome (A * bytes)) x, decWithin k c body = stopO x ->
  blen c < k /\ x = Fails "data too short" \/ k < 0 /\ x = Panics "slice bounds out of range" \/
  exists w c', c = w ++ c' /\ blen w = k /\ w = firstn (Z.to_nat k) c /\
    (body w = stopO x \/ exists a c1, body w = Ok (a, c1) /\ c1 <> [] /\ x = Fails "trailing data disallowed").
Proof.
  intros A k c body x H. unfold decWithin in H. destruct (Z.ltb_spec (blen c) k) as [|L]; [left; split; auto; now apply err_stop in H|].
  destruct (Z.ltb_spec k 0) as [|K]; [right; left; split; auto; now apply panic_stop in H|]. right. right.
  exists (firstn (Z.to_nat k) c), (skipn (Z.to_nat k) c). split; [symmetry; apply firstn_skipn|]. split; [now apply firstn_blen|]. split; auto.
  apply bind_stop in H as [H|([a c1] & H1 & H)]; auto. right. exists a, c1. split; auto.
  destruct (Z.ltb_spec 0 (blen c1)) as [N|N]; [|exfalso; eapply ok_stop; exact H]. apply err_stop in H as ->. split; auto.
  intros ->. cbn in N. lia.
Qed.
Lemma leaving_found : forall {A} k c (body : bytes -> outcome (A * bytes)) x, blen c <= d -> real x -> decLeaving k c body = stopO x ->
  blen c < k /\ x = Fails "data too short" \/
  exists w c', c = w ++ c' /\ blen c' = k /\ (exists j, w = firstn j c) /\
    (body w = stopO x \/ exists a c1, body w = Ok (a, c1) /\ c1 <> [] /\ x = Fails "trailing data disallowed").
Proof.
  intros A k c body x L R H. unfold decLeaving in H. destruct (Z.ltb_spec k 0); [exfalso; eapply stuck_stop; eassumption|].
  destruct (Z.ltb_spec (blen c) k); [left; split; auto; now apply err_stop in H|]. pose proof (blen_nonneg c).
  rewrite s64_id in H by lia. apply within_found in H as [[L' _]|[[L' _]|(w & c' & E & LW & F & H)]]; [lia|lia|].
  right. exists w, c'. split; auto. split; [rewrite E, blen_app in LW; lia|]. split; eauto.
Qed.

Lemma type_found : forall t ctxs k pos fs c x nm, wordf fs -> checkType r ctxs k t = true -> atpos dat (MField nm t) pos c ->
  decType camel r dcall n cenv d fs t c = stopO x -> real x -> Visits cenv pos (AtType t) fs c -> found x.
Proof.
  intros t ctxs k pos fs c x nm WF C P H R V.
  assert (P' : okpos (noPtrT t) pos c).
  { destruct P as [[P (A & L & _)]|[_ (A & L & [P|P])]]; [|discriminate|]; (split; [auto|]; split; [auto|]); auto. }
  destruct t as [sz cst| | | |nm'|b i|b [[f|i]|]].
  1,2,3,4,5: eapply (base_found _ ctxs pos fs c x); [exact C|exact P'|exact H|exact R|exact V].
  - cbn [checkType decType noPtrT] in *. apply andb_true_iff in C as [C G].
    unfold goodCount in G. destruct (int_value cv i) as [z|] eqn:Hz; [|discriminate]. pose proof Hz as Hz'. apply integerOf_value in Hz'.
    rewrite Hz' in H. cbn [bind] in H.
    apply bind_stop in H as [H|([vs c1] & H1 & H)]; [|exfalso; eapply ok_stop; exact H].
    destruct (for_found b ctxs fs n z pos c x C P' H) as (vs & w & c' & -> & E & LT & D & PP).
    eapply base_found; eauto. eapply V_fixed; eauto.
  - cbn [checkType decType noPtrT] in *. apply andb_true_iff in C as [C G].
    apply bind_stop in H as [H|(z & Hz & H)]; [exfalso; eapply ref_stop; eassumption|].
    assert (CT : checkType r ctxs k b = true) by (destruct b; auto; discriminate).
    destruct (tipe_ok camel r b ctxs k CT) as [g Hg]. rewrite Hg in H. cbn [bind] in H.
    destruct (cell_size camel r ctxs b g C Hg) as [GS GP]. rewrite GS in H.
    pose proof (word_ref camel cenv fs f z WF Hwc Hz) as W. pose proof (s64_range z) as SR.
    destruct ((s64 z <? 0) || (maxAlloc <? s64 z * cell b)) eqn:B.
    + apply panic_stop in H as ->. exists cenv, pos, (AtType (TVar b (Some (LRef f)))), fs, c. split; auto.
      apply B_array with (k := z); [now apply refVal_refers|]. change (2 ^ 48) with maxAlloc.
      destruct (Z_lt_le_dec z 0) as [|NZ]; [auto|right].
      destruct (Z_lt_le_dec z two63) as [LL|LL]; [rewrite s64_id in B by lia; lia|].
      unfold maxAlloc, two63 in *. nia.
    + apply bind_stop in H as [H|([vs c1] & H1 & H)]; [|exfalso; eapply ok_stop; exact H].
      destruct (for_found b ctxs fs n (s64 z) pos c x C P' H) as (vs & w & c' & -> & E & LT & D & PP).
      rewrite s64_word in * by (auto; lia).
      eapply base_found; eauto. eapply V_counted; eauto; [now apply refVal_refers|]. change (2 ^ 48) with maxAlloc. lia.
  - cbn [checkType decType noPtrT] in *. apply andb_true_iff in C as [C G].
    unfold goodCount in G. destruct (int_value cv i) as [z|] eqn:Hz; [|discriminate]. pose proof Hz as Hz'. apply integerOf_value in Hz'.
    rewrite Hz' in H. cbn [bind] in H.
    pose proof P' as (A & L & PP). apply leaving_found in H as [[LT ->]|(w & c' & E & LE & (j & EJ) & H)]; auto.
    + exists cenv, pos, (AtType (TVar b (Some (LLeftover i)))), fs, c. split; auto. econstructor; eauto.
    + assert (PB : okpos (noPtrT b) pos w).
      { subst w. assert (NB : noPtrT b = true) by (destruct P as [[P _]|[P _]]; auto).
        rewrite NB. apply okpos_tail. split; auto. }
      destruct H as [H|(a & c1 & H & NE & ->)].
      * apply bind_stop in H as [H|([vs c1] & H1 & H)]; [|exfalso; eapply ok_stop; exact H].
        destruct (while_found b ctxs fs n pos w x C PB H) as (vs & w1 & c1 & EW & EA & NE & D & P1).
        eapply base_found; eauto. subst c. rewrite EW, <- app_assoc in V. eapply V_allbut; eauto. now rewrite LE.
      * exfalso. apply bind_ok in H as ([vs c2] & H1 & H). injection H as <- <-.
        destruct (while_sound camel r True dcall cenv dat Hd Hcall b ctxs fs n pos w vs c2 C PB H1) as (-> & _). now apply NE.
  - cbn [checkType decType noPtrT] in *.
    apply bind_stop in H as [H|([vs c1] & H1 & H)]; [|exfalso; eapply ok_stop; exact H].
    destruct (while_found b ctxs fs n pos c x C P' H) as (vs & w1 & c1 & -> & EA & NE & D & P1).
    eapply base_found; eauto. eapply V_rest; eauto.
Qed.

Definition mfound (m : member) : Prop := forall ctxs k pos fs c x, wordf fs -> checkMember r ctxs k m = true -> atpos dat m pos c ->
  decMember camel r dcall n cenv d m fs c = stopO x -> real x -> Visits cenv pos (AtMember m) fs c -> found x.

Lemma members_found : forall ms ctxs k pos fs c x, wordf fs -> checkMembers r ctxs k ms = true -> allpos dat ms pos c ->
  decMembers camel r dcall n cenv d ms fs c = stopO x ->
  exists ms1 m ms2 k1 w c1 fs1, ms = ms1 ++ m :: ms2 /\ c = w ++ c1 /\ EncMs cenv pos ms1 fs w c1 fs1 /\ wordf fs1 /\
    checkMember r ctxs k1 m = true /\ atpos dat m (pos + blen w) c1 /\ decMember camel r dcall n cenv d m fs1 c1 = stopO x.
Proof.
  induction ms as [|m ms IH]; intros ctxs k pos fs c x W C P H; cbn [decMembers] in H; [exfalso; eapply ok_stop; exact H|].
  cbn [checkMembers] in C. apply andb_true_iff in C as [C1 C2].
  assert (P1 : atpos dat m pos c /\ forall w c1, c = w ++ c1 -> allpos dat ms (pos + blen w) c1).
  { unfold atpos, allpos in *. cbn [forallb] in P.
    destruct P as [[P1 P2]|[P1 P2]]; apply andb_true_iff in P1 as [P1 P3]; (split; [auto|]); intros w c1 ->;
    apply okpos_next in P2; auto. }
  destruct P1 as [P1 P2].
  apply bind_stop in H as [H|([fs1 c1] & H1 & H)].
  - exists [], m, ms, k, [], c, fs. split; auto. split; auto. split; [constructor|]. split; auto. split; auto. split; auto.
    change (blen (@nil Z)) with 0. now rewrite Z.add_0_r.
  - destruct (member_sound camel r True dcall n cenv dat Hd Hcall Hnoint Hwc m ctxs k pos fs c fs1 c1 W C1 (or_introl I) P1 H1) as (W1 & w1 & -> & E1).
    destruct (IH ctxs (addKnown k m) (pos + blen w1) fs1 c1 x W1 C2 (P2 _ _ eq_refl) H)
      as (ms1 & m' & ms2 & k1 & w & c' & fs' & -> & -> & E & W' & C' & P' & H').
    exists (m :: ms1), m', ms2, k1, (w1 ++ w), c', fs'. split; auto. split; [apply app_assoc|]. split; [econstructor; eauto|].
    split; auto. split; auto. split; auto. now rewrite blen_app, Z.add_assoc.
Qed.
Lemma members_found' : forall ms ctxs k pos fs c x, Forall mfound ms -> wordf fs -> checkMembers r ctxs k ms = true -> allpos dat ms pos c ->
  decMembers camel r dcall n cenv d ms fs c = stopO x -> real x -> Visits cenv pos (AtMembers ms) fs c -> found x.
Proof.
  intros ms ctxs k pos fs c x F W C P H R V.
  destruct (members_found ms ctxs k pos fs c x W C P H) as (ms1 & m & ms2 & k1 & w & c1 & fs1 & -> & -> & E & W1 & C1 & P1 & H1).
  apply Forall_app in F as [_ F]. apply Forall_inv in F.
  eapply F; eauto. eapply V_member; eauto.
Qed.

Lemma member_found : forall m, mfound m.
Proof.
  induction m as [nm t|u tag len cs IH| | |] using member_ind'; intros ctxs k pos fs c x W C P H R V.
  - cbn [decMember] in H. apply bind_stop in H as [H|([v c1] & H1 & H)]; [|exfalso; eapply ok_stop; exact H].
    cbn [checkMember] in C. eapply type_found; eauto. eapply V_field; eauto.
  - rewrite decMember_union in H. cbn zeta in H. cbn [checkMember] in C.
    change (forallb _ cs) with (forallb (fun c => match c with UCase l ms => match l with None => true | Some l' => definedList r l' end && kfix r ctxs k ms end) cs) in C.
    apply andb_true_iff in C as [C C3]. apply andb_true_iff in C as [C1 C2].
    assert (C3' : forallb (fun c => match c with UCase l ms => match l with None => true | Some l' => definedList r l' end && checkMembers r ctxs k ms end) cs = true).
    { rewrite forallb_forall in *. intros [l ms] I. specialize (C3 _ I). cbn beta iota in C3. now rewrite kfix_eq in C3. }
    assert (PI : forall c0, (len = None -> c0 = c) -> (exists j, c0 = firstn j c) ->
       forall cse, In cse cs -> allpos dat (ucase_members cse) pos c0).
    { intros c0 L0 (j & ->) [l ms] I. unfold allpos. cbn [ucase_members]. destruct P as [[P1 P2]|[P1 P2]].
      - left. split; [|now apply okpos_tail]. cbn [noPtrM] in P1. rewrite forallb_forall in P1. apply (P1 _ I).
      - cbn [ptrM] in P1. destruct len as [lc|].
        + left. split.
          * assert (P1' : forallb (fun c => match c with UCase _ ms => forallb noPtrM ms end) cs = true) by (destruct lc; exact P1).
            rewrite forallb_forall in P1'. apply (P1' _ I).
          * apply okpos_tail. destruct P2 as (A & L & _). split; auto.
        + right. rewrite L0 by auto. split; auto. rewrite forallb_forall in P1. apply (P1 _ I). }
    assert (D : blen c <= d) by (destruct P as [[_ P]|[_ P]]; apply P).
    assert (CASE : forall c0 y, (forall cse, In cse cs -> allpos dat (ucase_members cse) pos c0) ->
       decPick camel r dcall n cenv dat cs y cs fs c0 = stopO x ->
       (forall cse, takes cv cs y cse -> Visits cenv pos (AtMembers (ucase_members cse)) fs c0) -> found x).
    { intros c0 y PA HP VC. destruct (pick_spec camel r dcall n cenv dat cs y fs c0 cs [] eq_refl (Forall_nil _)) as [(cse & TK & E)|[N E]]; rewrite E in HP.
      - assert (I : In cse cs) by (destruct TK as [(p & q & -> & _)|(_ & I & _)]; auto; apply in_or_app; cbn; auto).
        rewrite Forall_forall in IH. rewrite forallb_forall in C3'. specialize (C3' _ I). specialize (IH _ I). specialize (PA _ I). specialize (VC _ TK).
        destruct cse as [l ms]. cbn [ucase_members] in *. apply andb_true_iff in C3' as [_ C3'].
        eapply members_found'; eauto.
      - exfalso. eapply ok_stop; exact HP. }
    assert (DONE : forall c0 y fs' c', (forall cse, In cse cs -> allpos dat (ucase_members cse) pos c0) ->
       decPick camel r dcall n cenv dat cs y cs fs c0 = Ok (fs', c') ->
       exists w, c0 = w ++ c' /\ encCase camel cv sv True cenv pos cs y fs w c' fs').
    { intros c0 y fs' c' PA HP.
      destruct (pick_sound camel r True dcall n cenv dat cs) with (ctxs := ctxs) (k := k) (pos := pos) (x := y) (fs := fs) (c := c0) (fs' := fs') (c' := c')
        as (_ & w & EW & EC); eauto.
      apply Forall_forall. intros cse _. apply Forall_forall. intros mm _. now apply member_sound. }
    destruct len as [[f|i]|]; cbn [decConstr] in H.
    + apply bind_stop in H as [H|(z & Hz & H)]; [exfalso; eapply ref_stop; eassumption|].
      pose proof (word_ref camel cenv fs f z W Hwc Hz) as WZ. pose proof (s64_range z) as SR. pose proof (blen_nonneg c) as BC.
      apply within_found in H as [[L ->]|[[L ->]|(w & c' & E & LW & EW & H)]].
      * exists cenv, pos, (AtMember (MUnion u tag (Some (LRef f)) cs)), fs, c. split; auto.
        rewrite s64_word in * by (auto; lia). apply F_union_len with (k := z); [now apply refVal_refers|]. change (2 ^ 63) with two63. lia.
      * exists cenv, pos, (AtMember (MUnion u tag (Some (LRef f)) cs)), fs, c. split; auto.
        apply B_union with (k := z); [now apply refVal_refers|]. change (2 ^ 63) with two63.
        destruct (Z_lt_le_dec z 0); [auto|right]. destruct (Z_lt_le_dec z two63); [rewrite s64_id in L by lia; lia|lia].
      * assert (Z0 : s64 z = z) by (apply s64_word; [auto|rewrite <- LW; apply blen_nonneg]).
        rewrite Z0 in *. clear Z0.
        assert (PW : forall cse, In cse cs -> allpos dat (ucase_members cse) pos w) by (apply PI; [discriminate|eauto]).
        destruct H as [H|(a & c1 & H & NE & ->)].
        -- apply bind_stop in H as [H|(y & Hy & H)]; [exfalso; eapply ref_stop; eassumption|].
           apply (CASE w y PW H). intros cse TK. rewrite E in V. apply refVal_refers in Hz, Hy. eapply V_case_len; eauto. now rewrite LW.
        -- apply bind_ok in H as (y & Hy & H). destruct (DONE w y a c1 PW H) as (w1 & -> & EC).
           exists cenv, pos, (AtMember (MUnion u tag (Some (LRef f)) cs)), fs, c. split; auto. rewrite E.
           apply refVal_refers in Hz, Hy. eapply F_trailing_len; eauto. now rewrite LW.
    + assert (G : goodCount r i = true) by exact C2.
      unfold goodCount in G. destruct (int_value cv i) as [z|] eqn:Hz; [|discriminate]. pose proof Hz as Hz'. apply integerOf_value in Hz'.
      rewrite Hz' in H. cbn [bind] in H.
      apply leaving_found in H as [[L ->]|(w & c' & E & LW & EW & H)]; auto.
      * exists cenv, pos, (AtMember (MUnion u tag (Some (LLeftover i)) cs)), fs, c. split; auto. econstructor; eauto.
      * assert (PW : forall cse, In cse cs -> allpos dat (ucase_members cse) pos w) by (apply PI; [discriminate|eauto]).
        destruct H as [H|(a & c1 & H & NE & ->)].
        -- apply bind_stop in H as [H|(y & Hy & H)]; [exfalso; eapply ref_stop; eassumption|].
           apply (CASE w y PW H). intros cse TK. rewrite E in V. apply refVal_refers in Hy. eapply V_case_allbut; eauto. now rewrite LW.
        -- apply bind_ok in H as (y & Hy & H). destruct (DONE w y a c1 PW H) as (w1 & -> & EC).
           exists cenv, pos, (AtMember (MUnion u tag (Some (LLeftover i)) cs)), fs, c. split; auto. rewrite E.
           apply refVal_refers in Hy. eapply F_trailing_allbut; eauto. now rewrite LW.
    + apply bind_stop in H as [H|(y & Hy & H)]; [exfalso; eapply ref_stop; eassumption|].
      apply (CASE c y); auto; [apply PI; auto; exists (List.length c); now rewrite firstn_all|].
      intros cse TK. apply refVal_refers in Hy. eapply V_case; eauto.
  - cbn [decMember] in H. destruct (Z.ltb_spec 0 (blen c)) as [L|]; [|exfalso; eapply ok_stop; exact H]. apply err_stop in H as ->.
    exists cenv, pos, (AtMember MEOS), fs, c. split; auto. constructor. intros ->. cbn in L. lia.
  - cbn [decMember] in H. apply err_stop in H as ->. exists cenv, pos, (AtMember MFail), fs, c. split; auto. constructor.
  - exfalso. cbn [decMember] in H. eapply ok_stop; exact H.
Qed.
End Body.

Hypothesis Hstr : forall nm s, Struct r nm = Some s -> Extern s = false ->
  checkStruct camel r s = true /\ forallb ptrM (members_of s) = true.
Lemma Hstr3 : forall nm s, Struct r nm = Some s -> Extern s = false ->
  checkStruct camel r s = true /\ forallb ptrM (members_of s) = true /\ (True \/ forallb totalM (members_of s) = true).
Proof. intros nm s HS HE. destruct (Hstr nm s HS HE). auto. Qed.

Lemma struct_found0 : forall s fs m cenv c x, checkStruct camel r s = true -> forallb ptrM (members_of s) = true ->
  (forall nm s' cenv pos fs c x, Struct r nm = Some s' -> Extern s' = false -> wordc cenv -> all_bytes c -> blen c < two63 ->
     decCall camel r m nm cenv c = stopO x -> real x -> Visits cenv pos (AtType (TStruct nm)) fs c -> found x) ->
  wordc cenv -> wordf fs -> all_bytes c -> blen c < two63 -> real x ->
  decMembers camel r (decCall camel r m) m cenv (blen c) (members_of s) fs c = stopO x ->
  Visits cenv 0 (AtMembers (members_of s)) fs c -> found x.
Proof.
  intros s fs m cenv c x CS PT HB WC WF A L R H V.
  eapply (members_found' (decCall camel r m) m cenv c L) with (ms := members_of s) (ctxs := scontexts s) (k := @nil (string * Z)); eauto.
  - intros. eapply call_sound; eauto. apply Hstr3.
  - intros. apply call_noint.
  - apply Forall_forall. intros mm _. apply member_found; auto.
    + intros. eapply call_sound; eauto. apply Hstr3.
    + intros. apply call_noint.
    + intros nm s' pos fs' c' x' HS HE A' L' H' R' V'. eapply HB; eauto.
  - eapply checked_members; eassumption.
  - right. split; auto. split; auto. split; [lia|]. right. lia.
Qed.

Lemma call_found : forall m nm s cenv pos fs c x, Struct r nm = Some s -> Extern s = false -> wordc cenv -> all_bytes c -> blen c < two63 ->
  decCall camel r m nm cenv c = stopO x -> real x -> Visits cenv pos (AtType (TStruct nm)) fs c -> found x.
Proof.
  induction m as [|m IH]; intros nm s cenv pos fs c x HS HE WC A L H R V; cbn [decCall] in H; rewrite HS in H;
    destruct (Hstr _ _ HS HE) as (C1 & C2); destruct (structDecl_ok camel r s C1) as [ds Hds]; rewrite Hds in H; cbn [bind] in H;
    (apply bind_stop in H as [H|(args & Ha & H)]; [exfalso; clear - H R|]).
  - unfold ctxArgs in H. induction (scontexts s) as [|y ns IHn]; cbn [mapM] in H; [eapply ok_stop; exact H|].
    apply bind_stop in H as [H|(v & _ & H)]; [destruct (alookup y cenv); [eapply ok_stop; exact H|eapply stuck_stop; eassumption]|].
    apply bind_stop in H as [H|(v' & _ & H)]; [auto|eapply ok_stop; exact H].
  - exfalso. eapply fuel_stop; exact H.
  - unfold ctxArgs in H. induction (scontexts s) as [|y ns IHn]; cbn [mapM] in H; [eapply ok_stop; exact H|].
    apply bind_stop in H as [H|(v & _ & H)]; [destruct (alookup y cenv); [eapply ok_stop; exact H|eapply stuck_stop; eassumption]|].
    apply bind_stop in H as [H|(v' & _ & H)]; [auto|eapply ok_stop; exact H].
  - apply bind_stop in H as [H|([fs1 c1] & _ & H)]; [|exfalso; eapply ok_stop; exact H].
    rewrite (zeros_blank camel r _ _ Hds) in H.
    eapply struct_found0 in H; eauto.
    + eapply ctxs_word; eauto.
    + apply blank_word.
    + eapply V_struct; eauto. apply passes_args. eauto.
Qed.

Theorem struct_found : forall m x, checkStruct camel r s0 = true -> forallb ptrM (members_of s0) = true ->
  wordc cenv0 -> wordf fs0 -> all_bytes data -> blen data < two63 -> real x ->
  decStruct camel r m s0 fs0 cenv0 data = stopO x -> found x.
Proof.
  intros [|m] x C1 C2 WC WF A L R H; [exfalso; eapply fuel_stop; exact H|]. cbn [decStruct] in H.
  eapply struct_found0 in H; eauto; [|constructor]. intros. eapply call_found; eauto.
Qed.
End Fault.
