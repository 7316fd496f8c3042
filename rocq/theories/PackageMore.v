(** More facts about calls of generated packages: what the fields hold after a
    successful call, and what the call does not depend on. *)
From Coq Require Import ZArith String List Bool Lia ZifyBool ZifyNat.
From Verif Require Import Base Ast IntervalsModel InspectModel InspectSpec InspectProofs BranchProofs GoLang GenModel GenDecode GenCheck
  GenSim GenSimBody GenSimProg WireSpec WireProofs WireComplete GenTerm GenSafe GenMono GenRecv GenExt WireFacts ReachSpec ReachProofs PackageSpec PackageProofs PackageFacts.
Import ListNotations.
Open Scope string_scope.
Open Scope list_scope.
Open Scope Z_scope.
Ltac Zify.zify_post_hook ::= Z.div_mod_to_equations.

Lemma lookup_map : forall {A} (f : A -> string) (v : value) (l : list A) g, In g (map f l) -> alookup g (map (fun x => (f x, v)) l) = Some v.
Proof.
  intros A f v. induction l as [|a l IH]; intros g I; [destruct I|]. cbn in *. destruct (String.eqb_spec g (f a)); auto.
  destruct I as [E|I]; auto. congruence.
Qed.
Lemma map_fst_const : forall {A} (f : A -> string) (v : value) (l : list A), map fst (map (fun x => (f x, v)) l) = map f l.
Proof. intros A f v l. rewrite map_map. reflexivity. Qed.

Lemma NoDup_map_inj : forall {A B} (f : A -> B) l a b, NoDup (map f l) -> In a l -> In b l -> f a = f b -> a = b.
Proof.
  intros A B f. induction l as [|x l IH]; intros a b ND Ia Ib E; [destruct Ia|]. cbn in ND. inversion ND as [|? ? NI ND']; subst.
  destruct Ia as [->|Ia], Ib as [->|Ib]; auto.
  - exfalso. apply NI. rewrite E. now apply in_map.
  - exfalso. apply NI. rewrite <- E. now apply in_map.
Qed.

Section Pack.
Variable camel : string -> string.
Variable os : nat -> orders.
Variable fs : list file.
Variable r : resolver.
Variable p : program.
Hypothesis PK : package camel os fs r p.
Notation cv := (Constant r).
Notation sv := (Struct r).
Notation Enc := (enc camel cv sv True).
Notation EncM := (encM camel cv sv True).
Notation Present := (present camel r).

Lemma goStruct_dom : forall s fs0, goStruct camel r s fs0 -> map fst fs0 = map (fun f => camel (fst f)) (flat_map allFields (members_of s)).
Proof.
  intros s fs0 H. unfold goStruct in H. induction H as [|x y l l' [E _] _ IH]; auto. cbn [map]. now rewrite E, IH.
Qed.
Lemma names_fields : forall s, flat_map fieldNames (members_of s) = map fst (flat_map allFields (members_of s)).
Proof. intros s. apply fieldNames_list. Qed.

Lemma encM_field_inv : forall lenient c pos nm t f w tl f', encM camel cv sv lenient c pos (MField nm t) f w tl f' ->
  exists v, enc camel cv sv lenient c pos f t v w tl /\ f' = setField (camel nm) v f.
Proof. intros. inversion H; subst; eauto. Qed.
Lemma present_names : forall cenv fin ns m, Present cenv fin ns m -> incl (fieldNames m) (flat_map fieldNames ns).
Proof.
  intros cenv fin ns m P. induction P as [ms0 m I|ms0 u tag len cs x c m I R T P IH]; intros y Hy.
  - apply in_flat_map. eauto.
  - apply in_flat_map. exists (MUnion u tag len cs). split; auto. cbn [fieldNames]. apply in_flat_map. exists c.
    split; [eapply takes_in; eauto|]. specialize (IH _ Hy). destruct c; auto.
Qed.
Lemma present_fields : forall cenv fin ns m, Present cenv fin ns m -> incl (allFields m) (flat_map allFields ns).
Proof.
  intros cenv fin ns m P. induction P as [ms0 m I|ms0 u tag len cs x c m I R T P IH]; intros y Hy.
  - apply in_flat_map. eauto.
  - apply in_flat_map. exists (MUnion u tag len cs). split; auto. cbn [allFields]. apply in_flat_map. exists c.
    split; [eapply takes_in; eauto|]. specialize (IH _ Hy). destruct c; auto.
Qed.

(** ParseX is Parse on a fresh value. *)
Lemma new_same : forall s data args, defines fs s -> ctxValues camel r s args -> goBytes data ->
  forall n, let run := runParse camel p n s (blank camel cv s) data args in
  (forall v rest, run = (v, SRet (VBytes rest) VNil) -> runNew camel p n s data args = SRet v VNil) /\
  (forall e, snd run = SRet VNil (VErr e) -> runNew camel p n s data args = SRet VNil (VErr e)) /\
  (forall m, snd run = SPanic m -> runNew camel p n s data args = SPanic m) /\
  (snd run = SFuel -> runNew camel p n s data args = SFuel).
Proof.
  intros s data args D CV GB n run. apply defines_in in D.
  pose proof (new_run camel os fs r p PK n s data args D CV GB) as N.
  pose proof (parse_run camel os fs r p PK n s _ data args D CV (blank_goStruct camel os fs r p PK s D) GB) as E. fold run in E.
  destruct (decStruct camel r n s (blank camel cv s) _ data) as [[fs1 c1]|m|m|]; cbn [ends newEnds] in *; [|destruct E as [v' E]..]; rewrite E;
    repeat split; cbn [snd]; intros; try discriminate; congruence.
Qed.

Section Call.
Variable s : struct.
Variable fs0 : amap value.
Variable data : bytes.
Variable args : list value.
Hypothesis VC : validCall camel fs r s fs0 data args.
Notation cenv := (contextsOf s args).
Notation ms := (members_of s).

Lemma vc_dom : map fst fs0 = map camel (flat_map fieldNames ms).
Proof. rewrite (goStruct_dom _ _ (vc_recv _ _ _ _ _ _ _ VC)), names_fields, map_map. reflexivity. Qed.

Section Success.
Variable fs1 : amap value.
Variable rest : bytes.
Hypothesis PT : ptrFiles fs = true.
Hypothesis HP : parses camel p s fs0 data args fs1 rest.

Lemma the_bytes : exists w, data = w ++ rest /\ encStruct camel cv sv True cenv s fs0 w rest fs1.
Proof. eapply parses_encodes; eauto. Qed.

(** Present members were encoded in the data. *)
Theorem present_in : forall m, Present cenv fs1 ms m -> exists w, data = w ++ rest /\ encodedIn camel r True cenv fs1 0 w rest m.
Proof.
  intros m P. destruct the_bytes as (w & E & H). exists w. split; auto.
  destruct (checked_parts camel r s (vc_check camel os fs r p PK _ _ _ _ VC)) as (C1 & C2 & C3).
  apply (present_encoded camel r True cenv fs1 ms m P (scontexts s) [] 0 fs0 w rest fs1); auto.
  - intros a b [].
  - intros a _. reflexivity.
Qed.
(** Fields that are not present keep their value. *)
Theorem absent_kept : forall g, (forall nm t, camel nm = g -> ~ Present cenv fs1 ms (MField nm t)) -> alookup g fs1 = alookup g fs0.
Proof.
  intros g N. destruct the_bytes as (w & E & H).
  destruct (checked_parts camel r s (vc_check camel os fs r p PK _ _ _ _ VC)) as (C1 & C2 & C3).
  destruct (changed_present_ms camel r True cenv fs1 (scontexts s) ms [] 0 fs0 w rest fs1 H C1) with (g := g) as [X|(nm & t & E' & P)]; auto.
  - intros a b [].
  - intros a [].
  - intros a _. reflexivity.
  - exfalso. eapply N; eauto.
Qed.
Lemma final_dom : map fst fs1 = map fst fs0.
Proof. destruct the_bytes as (w & _ & H). eapply encMs_dom; eauto. Qed.

(** Present fields hold the value that was encoded. *)
Theorem field_in : forall nm t, Present cenv fs1 ms (MField nm t) ->
  exists pre w tl post fs' v, data = pre ++ w ++ post /\ (exists more, post = tl ++ more) /\
    Enc cenv (blen pre) fs' t v w tl /\ alookup (camel nm) fs1 = Some v /\
    (forall f x, In f (refsOf (MField nm t)) -> refers camel cenv fs' f x -> refers camel cenv fs1 f x).
Proof.
  intros nm t P. destruct (present_in _ P) as (w & E & pre & w' & post & tl & more & fsa & fsb & -> & E0 & EM & D & A & R).
  destruct (encM_field_inv _ _ _ _ _ _ _ _ _ EM) as (v & HT & ->). exists pre, w', tl, (post ++ rest), fsa, v. split; [rewrite E; now rewrite <- !app_assoc|].
  split; [eauto|]. split; [auto|]. split; auto. rewrite <- (A nm) by now left. apply set_lookup.
  rewrite <- (setField_dom (camel nm) v fsa), D, final_dom, vc_dom. apply in_map. apply (present_names _ _ _ _ P). now left.
Qed.
(** Unions occupy some bytes; their case is determined by the tag. *)
Theorem union_in : forall u tag len cs, Present cenv fs1 ms (MUnion u tag len cs) ->
  exists pre w tl post fsa fsb, data = pre ++ w ++ post /\ (exists more, post = tl ++ more) /\
    EncM cenv (blen pre) (MUnion u tag len cs) fsa w tl fsb /\
    (forall x, refers camel cenv fsa tag x -> refers camel cenv fs1 tag x) /\
    (forall f x, len = Some (LRef f) -> refers camel cenv fsa f x -> refers camel cenv fs1 f x).
Proof.
  intros u tag len cs P. destruct (present_in _ P) as (w & E & pre & w' & post & tl & more & fsa & fsb & -> & E0 & EM & D & A & R).
  exists pre, w', tl, (post ++ rest), fsa, fsb. split; [rewrite E; now rewrite <- !app_assoc|]. split; [eauto|]. split; auto. split.
  - intros x. apply R. destruct len as [[]|]; now left.
  - intros f x ->. apply R. right. now left.
Qed.

(** Longer data. *)
Theorem longer : forall more, goBytes (data ++ more) -> selfDelimiting r s -> parses camel p s fs0 (data ++ more) args fs1 (rest ++ more).
Proof.
  intros more GB SD.
  assert (VC' : validCall camel fs r s fs0 (data ++ more) args) by (constructor; auto; apply VC).
  apply (parses_dec camel os fs r p PK _ _ _ _ VC) in HP as [n H]. apply (parses_dec camel os fs r p PK _ _ _ _ VC'). exists n.
  refine (struct_ext camel r s SD _ more n fs0 cenv data _ _ _ _ H).
  - intros nm s' HS HE. split; [eapply str_check; eauto|]. apply (ptr_struct fs PT). eapply str_defines; eauto.
  - eapply vc_check; eauto.
  - apply (ptr_struct fs PT). apply VC.
Qed.
End Success.
End Call.

(** Lossless. *)
Theorem lossless : ptrFiles fs = true -> forall s args fsa da fsb db, validCall camel fs r s fsa da args -> validCall camel fs r s fsb db args ->
  ignoreFree r s -> forall fs1 ra rb, parses camel p s fsa da args fs1 ra -> parses camel p s fsb db args fs1 rb ->
  exists w, da = w ++ ra /\ db = w ++ rb.
Proof.
  intros PT s args fsa da fsb db VA VB IF fs1 ra rb HA HB.
  destruct (the_bytes _ _ _ _ VA _ _ PT HA) as (wa & EA & A). destruct (the_bytes _ _ _ _ VB _ _ PT HB) as (wb & EB & B).
  assert (wa = wb); [|subst wb; eauto].
  eapply (struct_injective camel r True s IF); eauto.
  - intros. eapply str_check; eauto.
  - eapply vc_check; eauto.
  - intros a Ha. rewrite (vc_dom _ _ _ _ VA). now apply in_map.
Qed.

(** Nested structs. *)
Definition passed (s' : struct) (cenv : amap value) (args' : list value) : Prop :=
  Forall2 (fun x a => alookup x cenv = Some a) (scontexts s') args'.
Lemma passes_passed : forall cenv s' cenv', passes cenv s' cenv' <-> exists args', passed s' cenv args' /\ cenv' = contextsOf s' args'.
Proof.
  intros cenv s' cenv'. unfold passes, passed, contextsOf. split.
  - intros H. induction H as [|x [y v] l l' [E1 E2] _ (args' & IH & ->)]; [exists []; split; [constructor|reflexivity]|].
    cbn in *. subst y. exists (v :: args'). split; [now constructor|reflexivity].
  - intros (args' & H & ->). induction H; cbn [combine]; constructor; auto.
Qed.
Lemma combine_lookup : forall (P : string -> value -> Prop) l args, Forall2 P l args -> forall x v, alookup x (combine l args) = Some v -> P x v.
Proof.
  intros P l args H. induction H as [|y a l args Hy _ IH]; intros x v E; [discriminate|]. cbn in E.
  destruct (String.eqb_spec x y) as [->|]; [injection E as <-; auto|auto].
Qed.
Lemma passed_values : forall s args s' args', ctxValues camel r s args -> passed s' (contextsOf s args) args' -> ctxValues camel r s' args'.
Proof.
  intros s args s' args' CV PA. unfold passed in PA. unfold ctxValues in *.
  induction PA as [|x a l l' E PA IH]; constructor; auto. apply (combine_lookup _ _ _ CV _ _ E).
Qed.
Lemma nested_parses : ptrFiles fs = true -> roomyFiles fs r -> forall s args, ctxValues camel r s args -> forall lenient pos f nm v w tl,
  enc camel cv sv lenient (contextsOf s args) pos f (TStruct nm) v w tl -> goBytes (w ++ tl) -> blen (w ++ tl) <= maxData ->
  exists s' args' fs', sv nm = Some s' /\ v = VStruct (camel nm) fs' /\ passed s' (contextsOf s args) args' /\
    validCall camel fs r s' (blank camel cv s') (w ++ tl) args' /\ parses camel p s' (blank camel cv s') (w ++ tl) args' fs' tl.
Proof.
  intros PT SO s args CV lenient pos f nm v w tl E GB L.
  inversion E as [| | | |? ? ? s' cenv' fs' ? ? ES EX PA EM| | | |]; subst. apply passes_passed in PA as (args' & PA & ->).
  destruct (str_defines camel os fs r p PK _ _ ES EX) as [D _].
  assert (VC : validCall camel fs r s' (blank camel cv s') (w ++ tl) args').
  { constructor; auto.
    - eapply passed_values; eauto.
    - eapply blank_goStruct; eauto. now apply defines_in. }
  exists s', args', fs'. split; [auto|]. split; [auto|]. split; [auto|]. split; [auto|].
  eapply (encodes_parses camel os fs r p PK _ _ _ _ VC PT SO L); eauto.
Qed.
Lemma nested_fails : ptrFiles fs = true -> roomyFiles fs r -> forall s fs0 data args, validCall camel fs r s fs0 data args -> blen data <= maxData ->
  forall (lenient : Prop) cenv' pos nm f c, visits camel cv sv lenient (contextsOf s args) s fs0 data cenv' pos (AtType (TStruct nm)) f c ->
  forall s' args', sv nm = Some s' -> passed s' cenv' args' -> validCall camel fs r s' (blank camel cv s') c args' ->
  forall e, fails camel p s' (blank camel cv s') c args' e -> fails camel p s fs0 data args e.
Proof.
  intros PT SO s fs0 data args VC L lenient cenv' pos nm f c V s' args' ES PA VC' e F.
  apply (fails_dec camel os fs r p PK _ _ _ _ VC') in F as [n H].
  eapply (visit_error camel os fs r p PK _ _ _ _ VC PT SO L lenient); eauto. intros d. exists n. intros n' Hn. left. cbn [decType decBase].
  destruct n' as [|n']; [destruct n; [discriminate H|lia]|]. cbn [decCall].
  destruct (structDecl_ok camel r s' (vc_check camel os fs r p PK _ _ _ _ VC')) as [ds Hds]. rewrite ES, Hds. cbn [bind].
  assert (HA : ctxArgs cenv' (scontexts s') = Ok args').
  { unfold ctxArgs. unfold passed in PA. clear - PA. induction PA as [|x a l l' E PA IH]; auto. cbn [mapM]. rewrite E. cbn [bind]. now rewrite IH. }
  rewrite HA. cbn [bind]. rewrite (zeros_blank camel r s' ds Hds).
  assert (Y : decStruct camel r (Datatypes.S n') s' (blank camel cv s') (contextsOf s' args') c = Err e).
  { apply (dec_final camel r _ _ _ _ n); [exact H|discriminate|lia]. }
  cbn [decStruct] in Y. unfold contextsOf in Y. now rewrite Y.
Qed.

(** Receivers. *)
Section Recv.
Variable s : struct.
Variable data : bytes.
Variable args : list value.
Notation cenv := (contextsOf s args).
Notation ms := (members_of s).

Lemma present_trans : forall fin root u tag len cs x c m, Present cenv fin root (MUnion u tag len cs) ->
  refers camel cenv fin tag x -> takes cv cs x c -> In m (ucase_members c) -> Present cenv fin root m.
Proof.
  intros fin root u tag len cs x c m P R T I. remember (MUnion u tag len cs) as U. revert HeqU.
  induction P as [ms0 m0 I0|ms0 u0 tag0 len0 cs0 x0 c0 m0 I0 R0 T0 P IH]; intros ->.
  - eapply P_case; eauto. now constructor.
  - eapply P_case; eauto.
Qed.
(** Presence carries over to a struct that agrees on present fields. *)
Lemma present_transfer : forall fa fx root, (forall nm t, Present cenv fx root (MField nm t) -> alookup (camel nm) fx = alookup (camel nm) fa) ->
  forall cur m, Present cenv fa cur m -> forall k ctxs, checkMembers r ctxs k cur = true -> agreeOn camel (map fst k) fx fa ->
  (forall m', In m' cur -> Present cenv fx root m') -> Present cenv fx root m.
Proof.
  intros fa fx root AG cur m P. induction P as [ms0 m I|ms0 u tag len cs x c m I R T P IH]; intros k ctxs C A IN; auto.
  apply in_split in I as (ms1 & ms2 & ->). rewrite checkMembers_app in C. apply andb_true_iff in C as [_ C].
  cbn [checkMembers] in C. apply andb_true_iff in C as [C _].
  assert (A' : agreeOn camel (map fst (knownAfter k ms1)) fx fa).
  { assert (X : forall l k, agreeOn camel (map fst k) fx fa -> (forall m', In m' l -> Present cenv fx root m') -> agreeOn camel (map fst (knownAfter k l)) fx fa).
    { clear - AG. induction l as [|m l IH]; intros k A IN; auto. cbn [knownAfter fold_left]. apply IH; [|intros; apply IN; now right].
      destruct m as [nm t| | | |]; cbn [addKnown]; auto. destruct t; auto. intros y [<-|Hy]; [eapply AG; apply IN; now left|auto]. }
    apply X; auto. intros; apply IN. apply in_or_app; auto. }
  destruct (check_union _ _ _ _ _ _ _ C) as (W & _ & CC). destruct (CC _ (takes_in _ _ _ _ T)) as [_ CM].
  assert (PU : Present cenv fx root (MUnion u tag len cs)) by (apply IN, in_or_app; right; now left).
  assert (RX : refers camel cenv fx tag x).
  { apply (refers_agree camel cenv fa); auto. intros S. symmetry. apply A'.
    destruct W as [sz W]. eapply local_refs; eauto. }
  eapply IH; eauto. intros m' I'. eapply present_trans; eauto.
Qed.

Lemma enc_notnil : forall lenient c pos f t v w tl, enc camel cv sv lenient c pos f t v w tl -> v <> VNil.
Proof. intros. inversion H; discriminate. Qed.

Variable fa fb : amap value.
Hypothesis VA : validCall camel fs r s fa data args.
Hypothesis VB : validCall camel fs r s fb data args.
Hypothesis PT : ptrFiles fs = true.

(** A receiver with all fields nil, used to see which fields are set. *)
Let fx : amap value := map (fun f => (f, VNil)) (map camel (flat_map fieldNames ms)).
Lemma fx_dom : map fst fx = map fst fa.
Proof. unfold fx. rewrite map_map. cbn. rewrite map_id. symmetry. exact (vc_dom _ _ _ _ VA). Qed.

Lemma sound_nil : forall n fx' rest, decStruct camel r n s fx cenv data = Ok (fx', rest) ->
  exists w, data = w ++ rest /\ encStruct camel cv sv True cenv s fx w rest fx'.
Proof.
  intros n fx' rest H. eapply (struct_sound camel r True) with (m := n); eauto.
  - intros nm' s' HS HE. destruct (str_defines camel os fs r p PK _ _ HS HE) as [D _]. split; [eapply str_check; eauto|].
    split; [eapply ptr_struct; eauto|auto].
  - eapply vc_check; eauto.
  - apply (ptr_struct fs PT). apply VA.
  - eapply vc_wordc; eauto.
  - intros f v E. assert (v = VNil); [|subst; exact I]. unfold fx in E. clear - E.
    induction (map camel (flat_map fieldNames ms)) as [|a l IH]; [discriminate|]. cbn in E. destruct (String.eqb f a); [congruence|auto].
  - apply VA.
  - apply VA.
Qed.
Lemma nil_present : forall n fx' rest, decStruct camel r n s fx cenv data = Ok (fx', rest) ->
  forall nm t, Present cenv fx' ms (MField nm t) -> alookup (camel nm) fx' <> Some VNil /\ In (camel nm) (map fst fx').
Proof.
  intros n fx' rest H nm t P.
  destruct (checked_parts camel r s (vc_check camel os fs r p PK _ _ _ _ VA)) as (C1 & C2 & C3).
  destruct (sound_nil _ _ _ H) as (w & E & X).
  destruct (present_encoded camel r True cenv fx' ms _ P (scontexts s) [] 0 fx w rest fx') as (pre & w' & post & tl & more & fsa & fsb & -> & E0 & EM & D & A & R); auto.
  { intros a b []. }
  { intros a _. reflexivity. }
  assert (IN : In (camel nm) (map fst fx')).
  { rewrite (encMs_dom camel r True _ _ _ _ _ _ _ X), fx_dom, (vc_dom _ _ _ _ VA). apply in_map.
    apply (present_names _ _ _ _ P). now left. }
  split; auto.
  destruct (encM_field_inv _ _ _ _ _ _ _ _ _ EM) as (v & HT & ->). rewrite <- (A nm) by now left. rewrite set_lookup.
  - intros EE. apply (enc_notnil _ _ _ _ _ _ _ _ HT). congruence.
  - rewrite <- (setField_dom (camel nm) v fsa), D. exact IN.
Qed.

Theorem receivers : forall fa1 rest, parses camel p s fa data args fa1 rest ->
  exists fb1, parses camel p s fb data args fb1 rest /\
    forall nm t, In (nm, t) (flat_map allFields ms) ->
      Present cenv fa1 ms (MField nm t) /\ Present cenv fb1 ms (MField nm t) /\ alookup (camel nm) fa1 = alookup (camel nm) fb1 \/
      ~ Present cenv fa1 ms (MField nm t) /\ ~ Present cenv fb1 ms (MField nm t) /\
        alookup (camel nm) fa1 = alookup (camel nm) fa /\ alookup (camel nm) fb1 = alookup (camel nm) fb.
Proof.
  intros fa1 rest HA. pose proof HA as HA0. apply (parses_dec camel os fs r p PK _ _ _ _ VA) in HA as [n HA].
  pose proof (vc_check camel os fs r p PK _ _ _ _ VA) as CS.
  destruct (checked_parts camel r s CS) as (C1 & C2 & C3).
  assert (DAB : map fst fa = map fst fb) by (rewrite (vc_dom _ _ _ _ VA); symmetry; exact (vc_dom _ _ _ _ VB)).
  pose proof (struct_both camel r n s fx fa cenv data CS fx_dom) as BXA.
  pose proof (struct_both camel r n s fx fb cenv data CS (eq_trans fx_dom DAB)) as BXB.
  rewrite HA in BXA. destruct (decStruct camel r n s fx cenv data) as [[fx1 cx]| | |] eqn:HX; cbn in BXA; try contradiction.
  destruct BXA as (-> & [_ DXA] & SXA).
  destruct (decStruct camel r n s fb cenv data) as [[fb1 cb]| | |] eqn:HB; cbn in BXB; try contradiction.
  destruct BXB as (<- & [_ DXB] & SXB). exists fb1.
  assert (HB0 : parses camel p s fb data args fb1 rest) by (apply (parses_dec camel os fs r p PK _ _ _ _ VB); eauto). split; [exact HB0|].
  assert (SET : forall nm t, Present cenv fx1 ms (MField nm t) -> forall fz fz1, sameOrKept fx fz fx1 fz1 -> alookup (camel nm) fx1 = alookup (camel nm) fz1).
  { intros nm t P fz fz1 SK. destruct (nil_present _ _ _ HX nm t P) as [NN IN]. destruct (SK (camel nm)) as [E|[E _]]; auto.
    exfalso. apply NN. rewrite E. unfold fx. apply (lookup_map (fun x => x)). rewrite map_id.
    now rewrite DXA, (final_dom _ _ _ _ VA _ _ PT HA0), (vc_dom _ _ _ _ VA) in IN. }
  assert (TR : forall fz fz1, sameOrKept fx fz fx1 fz1 -> forall m, Present cenv fz1 ms m -> Present cenv fx1 ms m).
  { intros fz fz1 SK m P. refine (present_transfer fz1 fx1 ms _ ms m P [] (scontexts s) C1 _ _).
    - intros nm t P'. eapply SET; eauto.
    - intros a [].
    - intros m' I. now constructor. }
  assert (TR2 : forall fz fz1, sameOrKept fx fz fx1 fz1 -> forall m, Present cenv fx1 ms m -> Present cenv fz1 ms m).
  { intros fz fz1 SK m P. refine (present_transfer fx1 fz1 ms _ ms m P [] (scontexts s) C1 _ _).
    - intros nm t P'. symmetry. eapply SET; eauto.
    - intros a [].
    - intros m' I. now constructor. }
  assert (ND : NoDup (map (fun f => camel (fst f)) (flat_map allFields ms))) by (eapply struct_nodup; eauto; eapply vc_in; eauto).
  assert (UQ : forall nm t nm' t', In (nm, t) (flat_map allFields ms) -> In (nm', t') (flat_map allFields ms) -> camel nm' = camel nm -> nm' = nm /\ t' = t).
  { intros nm t nm' t' I1 I2 E. assert (X : (nm', t') = (nm, t)); [|now injection X].
    apply (NoDup_map_inj (fun f => camel (fst f)) (flat_map allFields ms)); auto. }
  intros nm t IN.
  assert (DEC : alookup (camel nm) fx1 = Some VNil \/ alookup (camel nm) fx1 <> Some VNil).
  { destruct (alookup (camel nm) fx1) as [[]|]; auto; right; discriminate. }
  destruct DEC as [NIL|SOME].
  - right.
    assert (NX : forall nm' t', camel nm' = camel nm -> ~ Present cenv fx1 ms (MField nm' t')).
    { intros nm' t' E P. destruct (UQ nm t nm' t' IN) as [-> ->]; auto; [eapply present_fields; eauto; now left|].
      destruct (nil_present _ _ _ HX nm t P). contradiction. }
    assert (NA : forall nm' t', camel nm' = camel nm -> ~ Present cenv fa1 ms (MField nm' t')) by (intros nm' t' E P; apply (NX nm' t' E); eapply TR; eauto).
    assert (NB : forall nm' t', camel nm' = camel nm -> ~ Present cenv fb1 ms (MField nm' t')) by (intros nm' t' E P; apply (NX nm' t' E); eapply TR; eauto).
    split; [now apply NA|]. split; [now apply NB|].
    split; [apply (absent_kept _ _ _ _ VA _ _ PT HA0); auto|apply (absent_kept _ _ _ _ VB _ _ PT HB0); auto].
  - left.
    assert (PX : Present cenv fx1 ms (MField nm t)).
    { destruct (sound_nil _ _ _ HX) as (w & E & X).
      destruct (changed_present_ms camel r True cenv fx1 (scontexts s) ms [] 0 fx w rest fx1 X C1) with (g := camel nm) as [EQ|(nm' & t' & E' & P)]; auto.
      - intros a b [].
      - intros a [].
      - intros a _. reflexivity.
      - exfalso. apply SOME. rewrite EQ. unfold fx. apply (lookup_map (fun x => x)). rewrite map_id. apply in_map. rewrite names_fields.
        now apply (in_map fst) in IN.
      - destruct (UQ nm t nm' t' IN) as [-> ->]; auto. eapply present_fields; eauto. now left. }
    split; [eapply TR2; eauto|]. split; [eapply TR2; eauto|]. transitivity (alookup (camel nm) fx1); [symmetry|]; eapply SET; eauto.
Qed.
(** Calls that do not succeed do not depend on the receiver. *)
Theorem receivers_error : forall e, fails camel p s fa data args e -> fails camel p s fb data args e.
Proof.
  intros e H. apply (fails_dec camel os fs r p PK _ _ _ _ VA) in H as [n H]. apply (fails_dec camel os fs r p PK _ _ _ _ VB). exists n.
  assert (DAB : map fst fa = map fst fb) by (rewrite (vc_dom _ _ _ _ VA); symmetry; exact (vc_dom _ _ _ _ VB)).
  pose proof (struct_both camel r n s fa fb cenv data (vc_check camel os fs r p PK _ _ _ _ VA) DAB) as B. rewrite H in B.
  destruct (decStruct camel r n s fb cenv data); cbn in B; try contradiction. congruence.
Qed.
Theorem receivers_panic : forall e, panics camel p s fa data args e -> panics camel p s fb data args e.
Proof.
  intros e H. apply (panics_dec camel os fs r p PK _ _ _ _ VA) in H as [n H]. apply (panics_dec camel os fs r p PK _ _ _ _ VB). exists n.
  assert (DAB : map fst fa = map fst fb) by (rewrite (vc_dom _ _ _ _ VA); symmetry; exact (vc_dom _ _ _ _ VB)).
  pose proof (struct_both camel r n s fa fb cenv data (vc_check camel os fs r p PK _ _ _ _ VA) DAB) as B. rewrite H in B.
  destruct (decStruct camel r n s fb cenv data); cbn in B; try contradiction. congruence.
Qed.
End Recv.
End Pack.
