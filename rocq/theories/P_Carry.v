(** Property C102: a context is data that came earlier. *)
From Coq Require Import ZArith String List Bool Lia ZifyBool ZifyNat.
From Verif Require Import Base Ast IntervalsModel InspectModel InspectSpec InspectProofs GoLang GenModel GenDecode GenCheck GenSim GenSimBody GenSimProg GenMono WireSpec WireProofs WireComplete WireFacts GenTerm FwdProofs
  GroupSpec GroupProofs PackageSpec PackageProofs PackageFacts PackageMore GenExamples GenWitness IndepSpec UnrollProofs P_Unroll PickProofs RenameProofs CarrySpec CarryProofs.
Import ListNotations.
Open Scope string_scope.
Open Scope list_scope.
Open Scope Z_scope.

Lemma own_fields1 : forall x m, allFields (ownMember x m) = map (fun f => (fst f, ownType x (snd f))) (allFields m).
Proof.
  intros x. induction m as [nm t|u tag len cs IH| | |] using member_ind'; cbn [ownMember allFields map fst snd]; auto.
  induction cs as [|[l ms] cs IHcs]; cbn [flat_map map]; auto. inversion IH as [|? ? I1 I2]; subst. rewrite map_app, IHcs by auto. f_equal.
  clear - I1. induction ms as [|m ms IH]; cbn [flat_map map]; auto. inversion I1 as [|? ? A B]; subst. now rewrite map_app, A, IH.
Qed.
Lemma own_fields : forall x ms, flat_map allFields (map (ownMember x) ms) = map (fun f => (fst f, ownType x (snd f))) (flat_map allFields ms).
Proof. intros x ms. induction ms as [|m ms IH]; cbn [map flat_map]; auto. now rewrite map_app, own_fields1, IH. Qed.
Lemma own_blank : forall cv x t, blankOf cv (ownType x t) = blankOf cv t.
Proof. intros cv x t. destruct t as [| | | | | |b [l|]]; reflexivity. Qed.

Section Top.
Variable camel : string -> string.
Variable os : nat -> orders.
Variable fs : list file.
Variable r : resolver.
Variable p : program.
Hypothesis PK : package camel os fs r p.
Variables s s' hd : struct.
Variable x : string.
Variable cs' : list string.
Hypothesis XN : x <> "".
Hypothesis DS : defines fs s.
Hypothesis DS' : defines fs s'.
Hypothesis DH : defines fs hd.
Hypothesis EC : scontexts s = x :: cs'.
Hypothesis EC' : scontexts s' = cs'.
Hypothesis ECH : scontexts hd = cs'.
Hypothesis EM' : members_of s' = members_of hd ++ map (ownMember x) (members_of s).
Hypothesis NP : forallb noPtrM (members_of s) = true.
Variable whole : bytes.
Variable args : list value.
Variable ty : string.
Variable cf : amap value.
Notation xv := (VStruct ty cf).
Hypothesis VA : ctxValues camel r s (xv :: args).
Hypothesis VD : goBytes whole.
Notation cv := (Constant r).
Notation new := (blank camel cv s).
Notation new' := (blank camel cv s').
Notation newh := (blank camel cv hd).
Notation KH := (map (fun f : string * type => camel (fst f)) (flat_map allFields (members_of hd))).
Notation KS := (map (fun f : string * type => camel (fst f)) (flat_map allFields (members_of s))).
Notation dec n data := (decStruct camel r n s new (contextsOf s (xv :: args)) data).
Notation dec' n := (decStruct camel r n s' new' (contextsOf s' args) whole).
Notation dech n := (decStruct camel r n hd newh (contextsOf hd args) whole).
Definition carries (hf : amap value) : Prop := forall c g t, Context r x = Some c -> In (g, t) (cmembers c) -> alookup (camel g) cf = alookup (camel g) hf.
Lemma ca_args : Forall2 (fun y v => exists c, Context r y = Some c /\ ctxValue camel c v) cs' args.
Proof. unfold ctxValues in VA. rewrite EC in VA. now inversion VA. Qed.
Lemma ca_check : checkStruct camel r s = true.
Proof. eapply pk_check; eauto. now apply (defines_in fs). Qed.
Lemma ca_check' : checkStruct camel r s' = true.
Proof. eapply pk_check; eauto. now apply (defines_in fs). Qed.
Lemma ca_checkh : checkStruct camel r hd = true.
Proof. eapply pk_check; eauto. now apply (defines_in fs). Qed.
Lemma ca_keys : NoDup (KH ++ KS).
Proof.
  assert (N : NoDup (map (fun f : string * type => camel (fst f)) (flat_map allFields (members_of s')))) by (eapply struct_nodup; eauto; now apply (defines_in fs)).
  rewrite EM', flat_map_app, own_fields, map_app, map_map in N. exact N.
Qed.
Lemma ca_new : new' = newh ++ new.
Proof.
  unfold blank. rewrite EM', flat_map_app, own_fields, map_app, map_map. f_equal. apply map_ext. intros [g t]. cbn. now rewrite own_blank.
Qed.
Lemma ca_in : forall hf, (exists n data, dech n = Ok (hf, data)) -> carries hf -> forall c g t, Context r x = Some c -> In (g, t) (cmembers c) -> In (camel g) KH.
Proof.
  intros hf (n & data & H) CR c g t E I. destruct (in_dec string_dec (camel g) KH) as [J|J]; auto. exfalso.
  destruct n as [|n]; [discriminate|]. cbn [decStruct] in H. pose proof (members_keep camel r (decCall camel r n) n (contextsOf hd args) whole _ _ _ _ _ H (camel g) J) as K.
  rewrite (look_none (camel g) newh) in K by (unfold blank; rewrite map_map; exact J). rewrite <- (CR c g t E I) in K.
  apply alookup_none_notin in K. apply K. unfold ctxValues in VA. rewrite EC in VA. inversion VA as [|? ? ? ? (c0 & E0 & cf0 & V & F) _]; subst. rewrite E in E0. injection E0 as <-. injection V as _ <-.
  clear - I F. induction F as [|f kv l1 l2 (K & _) F IH]; [destruct I|]. destruct I as [->|I]; [left; exact K|right; auto].
Qed.
Lemma ca_head : forall n, like (fun g => ~ In g KH) newh new' (dech n) (match n with O => OutOfFuel | S m => decMembers camel r (decCall camel r m) m (contextsOf s' args) (blen whole) (members_of hd) new' whole end).
Proof.
  intros [|n]; [exact I|]. cbn [decStruct]. replace (contextsOf s' args) with (contextsOf hd args) by (unfold contextsOf; now rewrite EC', ECH). apply members_like.
  - apply Forall_forall. intros m Im. split.
    + intros g t J N. apply N. apply in_map_iff. exists (g, t). split; auto. apply in_flat_map. eauto.
    + intros f J E N. apply N. destruct (struct_uses camel r hd ca_checkh m f Im J E) as (sz & cst & K). apply in_map_iff. exists (rname f, TInt sz cst). auto.
  - intros g G. rewrite ca_new, look_app. destruct (alookup g newh) eqn:E; auto. exfalso. apply G. intros J. apply alookup_none_notin in E. apply E. unfold blank. rewrite map_map. exact J.
Qed.
Definition result (hf : amap value) (o o' : outcome (amap value * bytes)) : Prop :=
  match o, o' with
  | Ok (a, c), Ok (a', c') => c = c' /\ (forall g, In g KH -> alookup g a' = alookup g hf) /\ (forall g, In g KS -> alookup g a' = alookup g a)
  | Err e, Err e' => e = e'
  | Panic e, Panic e' => e = e'
  | OutOfFuel, OutOfFuel => True
  | _, _ => False
  end.
Lemma ca_rest : forall n hf data, dech n = Ok (hf, data) -> carries hf -> result hf (dec n data) (dec' n).
Proof.
  intros n hf data H CR. pose proof (ca_in hf (ex_intro _ n (ex_intro _ data H)) CR) as CI. pose proof (ca_head n) as L. rewrite H in L. destruct n as [|n]; [discriminate|].
  cbn [decStruct]. rewrite EM', members_app. destruct (decMembers camel r (decCall camel r n) n (contextsOf s' args) (blen whole) (members_of hd) new' whole) as [[a1 c1]| | |]; cbn [like] in L; try contradiction.
  cbn [bind]. destruct L as (<- & AG & KP).
  assert (ND := ca_keys). assert (DJ : forall g, In g KS -> ~ In g KH) by (intros g G J; exact (NoDup_app_disj _ _ _ ND J G)).
  assert (HE : held camel r x cf (namesIn (members_of s)) new a1).
  { split.
    - intros g G. assert (GS : In (camel g) KS) by (unfold namesIn in G; apply in_map_iff in G as (q & <- & Q); apply in_map_iff; eauto).
      destruct (KP (camel g) (DJ _ GS)) as [_ ->]. rewrite ca_new, look_app. rewrite (look_none (camel g) newh); auto. unfold blank. rewrite map_map. exact (DJ _ GS).
    - intros g (c & t & E & I). rewrite (CR c g t E I). symmetry. apply AG. intros N. apply N. exact (CI c g t E I). }
  destruct (checked_names camel r s ca_check) as [_ NC]. rewrite EC in NC. inversion NC as [|? ? XC _]; subst x0 l.
  pose proof (checked_members camel r s ca_check) as C. rewrite EC in C. pose proof (checked_members camel r s' ca_check') as C'. rewrite EC', EM' in C'.
  assert (exists k', checkMembers r cs' k' (map (ownMember x) (members_of s)) = true) as [k' C2].
  { clear - C'. revert C'. generalize (@nil (string * Z)). induction (members_of hd) as [|m ms IH]; intros k C; [eauto|]. cbn [app checkMembers] in C. apply andb_true_iff in C as [_ C]. eauto. }
  assert (D : does camel r x cf (namesIn (members_of s)) (decMembers camel r (decCall camel r n) n (contextsOf s (xv :: args)) (blen data) (members_of s) new data)
     (decMembers camel r (decCall camel r n) n (contextsOf s' args) (blen whole) (map (ownMember x) (members_of s)) a1 data)).
  { eapply carry_members0 with (cs' := cs') (k := []) (k' := k'); eauto.
    - apply Forall_forall. intros m _. eapply carry_member with (ty := ty); eauto.
      + unfold contextsOf. rewrite EC. cbn [combine alookup]. now rewrite String.eqb_refl.
      + intros y NE. unfold contextsOf. rewrite EC, EC'. cbn [combine alookup]. destruct (String.eqb_spec y x); [contradiction|reflexivity].
      + intros g h G (c & t & E & I) EQ. apply (DJ (camel g)); [unfold namesIn in G; apply in_map_iff in G as (q & <- & Q); apply in_map_iff; eauto|]. rewrite EQ. exact (CI c h t E I).
    - intros g [].
    - intros g G. exact G. }
  destruct (decMembers camel r (decCall camel r n) n (contextsOf s (xv :: args)) (blen data) (members_of s) new data) as [[a c]| | |] eqn:E1,
           (decMembers camel r (decCall camel r n) n (contextsOf s' args) (blen whole) (map (ownMember x) (members_of s)) a1 data) as [[a' c']| | |] eqn:E2; cbn [does result] in *; try contradiction; auto.
  destruct D as [-> [D _]]. split; auto. split.
  - intros g G. rewrite (members_keep camel r (decCall camel r n) n (contextsOf s' args) whole _ _ _ _ _ E2).
    + symmetry. apply AG. auto.
    + unfold keys. rewrite own_fields, map_map. intros J. exact (DJ g J G).
  - intros g G. apply in_map_iff in G as (q & <- & Q). symmetry. apply D. unfold namesIn. now apply in_map.
Qed.
Lemma ca_call' : validCall camel fs r s' new' whole args.
Proof. constructor; auto. - unfold ctxValues. rewrite EC'. exact ca_args. - eapply blank_goStruct; eauto. now apply (defines_in fs). Qed.
Lemma ca_callh : validCall camel fs r hd newh whole args.
Proof. constructor; auto. - unfold ctxValues. rewrite ECH. exact ca_args. - eapply blank_goStruct; eauto. now apply (defines_in fs). Qed.
Lemma ca_call : forall data, goBytes data -> validCall camel fs r s new data (xv :: args).
Proof. intros data G. constructor; auto. eapply blank_goStruct; eauto. now apply (defines_in fs). Qed.
Lemma ca_stop : forall n, match dech n with Ok _ => True | Err e => dec' n = Err e | Panic m => dec' n = Panic m | OutOfFuel => dec' n = OutOfFuel end.
Proof.
  intros n. pose proof (ca_head n) as L. destruct n as [|n]; [reflexivity|]. destruct (dech (S n)) as [[a c]| | |] eqn:E; auto; cbn [decStruct]; rewrite EM', members_app;
    destruct (decMembers camel r (decCall camel r n) n (contextsOf s' args) (blen whole) (members_of hd) new' whole) as [[a1 c1]| | |]; cbn [like] in L; try contradiction; cbn [bind]; congruence.
Qed.
End Top.

(** C102.  Let [s] need a context [x], and let [s'] have the members of [hd] and then those of [s], with
    fields of its own in the place of those of [x].  The members of [s] have no positions.

    What the parser of [hd] does not accept, that of [s'] rejects in the same way.  If the parser of [hd]
    accepts the data and leaves [rest], and the context holds what it found, then the parser of [s'] does
    with the data what that of [s] does with [rest] in this context: it accepts with the same fields and
    leaves the same, or it fails, panics or runs on alike. *)
Theorem C102_earlier : forall camel os fs r p, package camel os fs r p ->
  forall s s' hd x cs, x <> "" -> defines fs s -> defines fs s' -> defines fs hd ->
  scontexts s = x :: cs -> scontexts s' = cs -> scontexts hd = cs ->
  members_of s' = members_of hd ++ map (ownMember x) (members_of s) -> forallb noPtrM (members_of s) = true ->
  forall data args ty cf, ctxValues camel r s (VStruct ty cf :: args) -> goBytes data ->
  let new := blank camel (Constant r) s in let new' := blank camel (Constant r) s' in let newh := blank camel (Constant r) hd in
  let args1 := VStruct ty cf :: args in
  (forall e, fails camel p hd newh data args e -> fails camel p s' new' data args e) /\
  (forall m, panics camel p hd newh data args m -> panics camel p s' new' data args m) /\
  (neverEnds camel p hd newh data args -> neverEnds camel p s' new' data args) /\
  forall hf rest, parses camel p hd newh data args hf rest ->
  (forall c g t, Context r x = Some c -> In (g, t) (cmembers c) -> alookup (camel g) cf = alookup (camel g) hf) ->
  let joined (a a' : amap value) := (forall g t, In (g, t) (flat_map allFields (members_of hd)) -> alookup (camel g) a' = alookup (camel g) hf) /\
                                    (forall g t, In (g, t) (flat_map allFields (members_of s)) -> alookup (camel g) a' = alookup (camel g) a) in
  (forall a left, parses camel p s new rest args1 a left -> exists a', parses camel p s' new' data args a' left /\ joined a a') /\
  (forall a' left, parses camel p s' new' data args a' left -> exists a, parses camel p s new rest args1 a left /\ joined a a') /\
  (forall e, fails camel p s new rest args1 e <-> fails camel p s' new' data args e) /\
  (forall m, panics camel p s new rest args1 m <-> panics camel p s' new' data args m) /\
  (neverEnds camel p s new rest args1 <-> neverEnds camel p s' new' data args).
Proof.
  intros camel os fs r p PK s s' hd x cs XN DS DS' DH EC EC' ECH EM' NP data args ty cf VA VD new new' newh args1.
  pose proof (ca_call' camel os fs r p PK s s' x cs DS' EC EC' data args ty cf VA VD) as VC'.
  pose proof (ca_callh camel os fs r p PK s hd x cs DH EC ECH data args ty cf VA VD) as VCH.
  pose proof (ca_stop camel os fs r p PK s s' hd x cs DH EC' ECH EM' data args) as ST. fold new' newh in VC', VCH, ST.
  split; [|split; [|split]].
  - intros e. rewrite (fails_dec camel os fs r p PK _ _ _ _ VCH), (fails_dec camel os fs r p PK _ _ _ _ VC'). intros [n H]. exists n. specialize (ST n). now rewrite H in ST.
  - intros e. rewrite (panics_dec camel os fs r p PK _ _ _ _ VCH), (panics_dec camel os fs r p PK _ _ _ _ VC'). intros [n H]. exists n. specialize (ST n). now rewrite H in ST.
  - intros H n. apply (run_fuel camel os fs r p PK _ _ _ _ VC'). specialize (ST n). rewrite (proj1 (run_fuel camel os fs r p PK _ _ _ _ VCH n) (H n)) in ST. exact ST.
  - intros hf rest PH CR joined. apply (parses_dec camel os fs r p PK _ _ _ _ VCH) in PH as [n0 H0].
    assert (GR : goBytes rest).
    { destruct n0 as [|n0]; [discriminate|]. cbn [decStruct] in H0. destruct (tame_members camel r (decCall camel r n0) (leaves_call camel r n0) n0 _ data _ _ _ _ _ H0) as [(w & E) _].
      destruct VD as [AD LD]. rewrite E in AD, LD. unfold goBytes, all_bytes, blen in *. rewrite app_length in LD. apply Forall_app in AD as [_ AD]. split; [exact AD|lia]. }
    pose proof (ca_call camel os fs r p PK s DS args ty cf VA rest GR) as VC. fold new args1 in VC.
    assert (RS : forall n, (n0 <= n)%nat -> result camel s hd hf (decStruct camel r n s new (contextsOf s args1) rest) (decStruct camel r n s' new' (contextsOf s' args) data)).
    { intros n L. eapply (ca_rest camel os fs r p PK s s' hd x cs); eauto. eapply (dec_final camel r hd); eauto. discriminate. }
    assert (UP : forall n o, decStruct camel r n s new (contextsOf s args1) rest = o -> o <> OutOfFuel -> decStruct camel r (n0 + n) s new (contextsOf s args1) rest = o).
    { intros n o E N. eapply (dec_final camel r s); eauto. lia. }
    assert (UP' : forall n o, decStruct camel r n s' new' (contextsOf s' args) data = o -> o <> OutOfFuel -> decStruct camel r (n0 + n) s' new' (contextsOf s' args) data = o).
    { intros n o E N. eapply (dec_final camel r s'); eauto. lia. }
    assert (JN : forall a a', (forall g, In g (map (fun f : string * type => camel (fst f)) (flat_map allFields (members_of hd))) -> alookup g a' = alookup g hf) ->
                              (forall g, In g (map (fun f : string * type => camel (fst f)) (flat_map allFields (members_of s))) -> alookup g a' = alookup g a) -> joined a a').
    { intros a a' A B. split; intros g t I; [apply A|apply B]; apply in_map_iff; exists (g, t); auto. }
    split; [|split; [|split; [|split]]].
    + intros a c. rewrite (parses_dec camel os fs r p PK _ _ _ _ VC). intros [n H]. apply UP in H; [|discriminate]. specialize (RS (n0 + n)%nat ltac:(lia)). rewrite H in RS.
      destruct (decStruct camel r (n0 + n) s' new' (contextsOf s' args) data) as [[a' c']| | |] eqn:E; cbn [result] in RS; try contradiction. destruct RS as (<- & A & B).
      exists a'. split; [|now apply JN]. apply (parses_dec camel os fs r p PK _ _ _ _ VC'). eauto.
    + intros a c. rewrite (parses_dec camel os fs r p PK _ _ _ _ VC'). intros [n H]. apply UP' in H; [|discriminate]. specialize (RS (n0 + n)%nat ltac:(lia)). rewrite H in RS.
      destruct (decStruct camel r (n0 + n) s new (contextsOf s args1) rest) as [[a' c']| | |] eqn:E; cbn [result] in RS; try contradiction. destruct RS as (-> & A & B).
      exists a'. split; [|now apply JN]. apply (parses_dec camel os fs r p PK _ _ _ _ VC). eauto.
    + intros e. rewrite (fails_dec camel os fs r p PK _ _ _ _ VC), (fails_dec camel os fs r p PK _ _ _ _ VC'). split; intros [n H]; [apply UP in H|apply UP' in H]; try discriminate; exists (n0 + n)%nat;
        specialize (RS (n0 + n)%nat ltac:(lia)); rewrite H in RS;
        [destruct (decStruct camel r (n0 + n) s' new' (contextsOf s' args) data) as [[]| | |]|destruct (decStruct camel r (n0 + n) s new (contextsOf s args1) rest) as [[]| | |]]; cbn [result] in RS; try contradiction; congruence.
    + intros e. rewrite (panics_dec camel os fs r p PK _ _ _ _ VC), (panics_dec camel os fs r p PK _ _ _ _ VC'). split; intros [n H]; [apply UP in H|apply UP' in H]; try discriminate; exists (n0 + n)%nat;
        specialize (RS (n0 + n)%nat ltac:(lia)); rewrite H in RS;
        [destruct (decStruct camel r (n0 + n) s' new' (contextsOf s' args) data) as [[]| | |]|destruct (decStruct camel r (n0 + n) s new (contextsOf s args1) rest) as [[]| | |]]; cbn [result] in RS; try contradiction; congruence.
    + split; intros H n.
      * apply (run_fuel camel os fs r p PK _ _ _ _ VC'). destruct (decStruct camel r n s' new' (contextsOf s' args) data) eqn:E; auto; exfalso; apply UP' in E; try discriminate;
          pose proof (proj1 (run_fuel camel os fs r p PK _ _ _ _ VC (n0 + n)%nat) (H (n0 + n)%nat)) as F; specialize (RS (n0 + n)%nat ltac:(lia)); rewrite E, F in RS; cbn [result] in RS; contradiction.
      * apply (run_fuel camel os fs r p PK _ _ _ _ VC). destruct (decStruct camel r n s new (contextsOf s args1) rest) as [[]| | |] eqn:E; auto; exfalso; apply UP in E; try discriminate;
          pose proof (proj1 (run_fuel camel os fs r p PK _ _ _ _ VC' (n0 + n)%nat) (H (n0 + n)%nat)) as F; specialize (RS (n0 + n)%nat ltac:(lia)); rewrite E, F in RS; cbn [result] in RS; contradiction.
Qed.
Print Assumptions C102_earlier.

(** [context c { u8 k; u8 n; }], [struct head { u8 k; u8 n; }],
    [struct body with context c { union u[c.k] with length c.n { 1: u8 a; u8 b[]; 2: u8 d[c.n]; default: fail; }; u8 z; }] and
    [struct packet { u8 k; u8 n; union u[k] with length n { 1: u8 a; u8 b[]; 2: u8 d[n]; default: fail; }; u8 z; }]. *)
Definition caCtx := mkCtx "c" [("k", TInt 8 None); ("n", TInt 8 None)].
Definition caHead := mkStruct "head" [] (Some [u8 "k"; u8 "n"]).
Definition caMembers (k n : idref) := [MUnion "u" k (Some (LRef n)) [UCase (Some [mkRange (ILit 1) None]) [u8 "a"; MField "b" (TVar (TInt 8 None) None)];
  UCase (Some [mkRange (ILit 2) None]) [MField "d" (TVar (TInt 8 None) (Some (LRef n)))]; UCase None [MFail]]; u8 "z"].
Definition caBody := mkStruct "body" ["c"] (Some (caMembers (mkRef "c" "k") (mkRef "c" "n"))).
Definition caPacket := mkStruct "packet" [] (Some ([u8 "k"; u8 "n"] ++ caMembers (local "k") (local "n"))).
Definition cap := [mkFile [] [caCtx] [caHead; caBody; caPacket] []].
Lemma cap_package : package camelX osX cap (theRes cap) (theProg cap).
Proof. apply package_of; vm_compute; reflexivity. Qed.
Definition caV (k n : Z) : value := VStruct "C" [("K", VInt k); ("N", VInt n)].
Lemma ca_defines : forall s, In s [caHead; caBody; caPacket] -> defines cap s.
Proof. intros s I. split; [destruct I as [<-|[<-|[<-|[]]]]; reflexivity|]. eexists. split; [left; reflexivity|exact I]. Qed.
Lemma ca_values : forall k n, 0 <= k < 256 -> 0 <= n < 256 -> ctxValues camelX (theRes cap) caBody [caV k n].
Proof.
  intros k n K N. constructor; [|constructor]. exists caCtx. split; [vm_compute; reflexivity|]. exists [("K", VInt k); ("N", VInt n)]. split; [reflexivity|].
  repeat constructor; intros sz cst E; injection E as <- <-; eexists; split; try reflexivity; assumption.
Qed.
Example C102_case : package camelX osX cap (theRes cap) (theProg cap) /\ defines cap caHead /\ defines cap caBody /\ defines cap caPacket /\
  members_of caPacket = members_of caHead ++ map (ownMember "c") (members_of caBody) /\ forallb noPtrM (members_of caBody) = true /\
  ctxValues camelX (theRes cap) caBody [caV 1 3] /\
  parses camelX (theProg cap) caHead (blank camelX (Constant (theRes cap)) caHead) [1; 3; 7; 8; 9; 5; 6] [] [("K", VInt 1); ("N", VInt 3)] [7; 8; 9; 5; 6] /\
  (forall c g t, Context (theRes cap) "c" = Some c -> In (g, t) (cmembers c) -> alookup (camelX g) [("K", VInt 1); ("N", VInt 3)] = alookup (camelX g) [("K", VInt 1); ("N", VInt 3)]) /\
  parses camelX (theProg cap) caBody (blank camelX (Constant (theRes cap)) caBody) [7; 8; 9; 5; 6] [caV 1 3]
    [("A", VInt 7); ("B", VList [VInt 8; VInt 9]); ("D", VNil); ("Z", VInt 5)] [6] /\
  parses camelX (theProg cap) caPacket (blank camelX (Constant (theRes cap)) caPacket) [1; 3; 7; 8; 9; 5; 6] []
    [("K", VInt 1); ("N", VInt 3); ("A", VInt 7); ("B", VList [VInt 8; VInt 9]); ("D", VNil); ("Z", VInt 5)] [6].
Proof.
  assert (G : goBytes [1; 3; 7; 8; 9; 5; 6]) by (apply bytes_ok; vm_compute; reflexivity).
  assert (G1 : goBytes [7; 8; 9; 5; 6]) by (apply bytes_ok; vm_compute; reflexivity).
  assert (DH : defines cap caHead) by (apply ca_defines; cbn; auto). assert (DB : defines cap caBody) by (apply ca_defines; cbn; auto). assert (DP : defines cap caPacket) by (apply ca_defines; cbn; auto).
  assert (V : forall s d args, defines cap s -> ctxValues camelX (theRes cap) s args -> goBytes d -> validCall camelX cap (theRes cap) s (blank camelX (Constant (theRes cap)) s) d args).
  { intros s d args D C GB. constructor; auto. apply (blank_goStruct camelX osX cap (theRes cap) (theProg cap) cap_package). now apply (defines_in cap). }
  assert (CB : ctxValues camelX (theRes cap) caBody [caV 1 3]) by (apply ca_values; lia).
  split; [exact cap_package|]. split; [exact DH|]. split; [exact DB|]. split; [exact DP|]. split; [reflexivity|]. split; [reflexivity|]. split; [exact CB|].
  split; [apply (parses_dec camelX osX _ _ _ cap_package _ _ _ _ (V caHead _ [] DH (Forall2_nil _) G)); exists 9%nat; vm_compute; reflexivity|].
  split; [reflexivity|].
  split; [apply (parses_dec camelX osX _ _ _ cap_package _ _ _ _ (V caBody _ _ DB CB G1)); exists 9%nat; vm_compute; reflexivity|].
  apply (parses_dec camelX osX _ _ _ cap_package _ _ _ _ (V caPacket _ [] DP (Forall2_nil _) G)); exists 9%nat; vm_compute; reflexivity.
Qed.
