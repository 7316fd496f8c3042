(** What clients can rely on after a call of a generated parser. *)
From Coq Require Import ZArith String List Bool Lia ZifyBool ZifyNat.
From Verif Require Import Base Ast IntervalsModel InspectModel InspectSpec InspectProofs BranchProofs GoLang GenModel GenDecode GenCheck
  GenSim GenSimBody GenSimProg WireSpec WireProofs WireComplete GenTerm GenSafe GenMono GenRecv GenExt WireFacts ReachSpec ReachProofs
  PackageSpec PackageProofs PackageFacts PackageMore.
Import ListNotations.
Open Scope string_scope.
Open Scope list_scope.
Open Scope Z_scope.
Ltac Zify.zify_post_hook ::= Z.div_mod_to_equations.

Section Facts.
Variable camel : string -> string.
Variable os : nat -> orders.
Variable fs : list file.
Variable r : resolver.
Variable p : program.
Hypothesis PK : package camel os fs r p.
Notation cv := (Constant r).
Notation sv := (Struct r).
Notation Present := (present camel r).

(** Unions on the way to a present member. *)
Lemma flat_unique : forall {A B} (f : A -> list B) l a b y, NoDup (flat_map f l) -> In a l -> In b l -> In y (f a) -> In y (f b) -> a = b.
Proof.
  intros A B f. induction l as [|x l IH]; intros a b y ND Ia Ib Ya Yb; [destruct Ia|]. cbn [flat_map] in ND.
  destruct Ia as [->|Ia], Ib as [->|Ib]; auto.
  - exfalso. apply (NoDup_app_disj _ _ y ND); auto. apply in_flat_map. eauto.
  - exfalso. apply (NoDup_app_disj _ _ y ND); auto. apply in_flat_map. eauto.
  - eapply IH; eauto. eapply NoDup_app_r; eauto.
Qed.
Lemma map_flat : forall {A B C} (g : B -> C) (f : A -> list B) l, map g (flat_map f l) = flat_map (fun a => map g (f a)) l.
Proof. intros. induction l; auto. cbn. now rewrite map_app, IHl. Qed.
Lemma union_nodup : forall u tag len cs c, NoDup (map camel (fieldNames (MUnion u tag len cs))) -> In c cs ->
  NoDup (map camel (flat_map fieldNames (ucase_members c))).
Proof.
  intros u tag len cs c ND I. cbn [fieldNames] in ND. rewrite map_flat in ND. pose proof (NoDup_flat_map _ _ _ ND I) as X. destruct c; auto.
Qed.
Lemma member_nodup : forall ms m, NoDup (map camel (flat_map fieldNames ms)) -> In m ms -> NoDup (map camel (fieldNames m)).
Proof. intros ms m ND I. rewrite map_flat in ND. apply (NoDup_flat_map _ _ _ ND I). Qed.
Lemma name_unique : forall ms m m' nm, NoDup (map camel (flat_map fieldNames ms)) -> In m ms -> In m' ms ->
  In nm (fieldNames m) -> In nm (fieldNames m') -> m = m'.
Proof.
  intros ms m m' nm ND I I' J J'. rewrite map_flat in ND.
  eapply (flat_unique (fun a => map camel (fieldNames a))) with (y := camel nm); eauto; now apply in_map.
Qed.
Lemma defaults_case : forall u tag len cs c, defaultsM (MUnion u tag len cs) = true -> In c cs -> one_default cs /\ forallb defaultsM (ucase_members c) = true.
Proof.
  intros u tag len cs c D I. cbn [defaultsM] in D. apply andb_true_iff in D as [D1 D2]. apply oneDefaultb_spec in D1.
  rewrite forallb_forall in D2. specialize (D2 _ I). split; auto. now destruct c.
Qed.
Lemma present_default : forall cenv fin root u tag len cs, Present cenv fin root (MUnion u tag len cs) -> forallb defaultsM root = true -> one_default cs.
Proof.
  intros cenv fin root u tag len cs P. remember (MUnion u tag len cs) as U.
  induction P as [ms0 m I|ms0 u0 tag0 len0 cs0 x0 c0 m I R0 T0 P IH]; intros D; rewrite forallb_forall in D; specialize (D _ I); subst.
  - cbn [defaultsM] in D. apply andb_true_iff in D as [D1 _]. now apply oneDefaultb_spec in D1.
  - apply IH; auto. eapply defaults_case; eauto. eapply takes_in; eauto.
Qed.
Lemma present_case : forall cenv fin u tag len cs nm t, Present cenv fin [MUnion u tag len cs] (MField nm t) ->
  exists x c, refers camel cenv fin tag x /\ takes cv cs x c /\ Present cenv fin (ucase_members c) (MField nm t).
Proof.
  intros cenv fin u tag len cs nm t Q. inversion Q as [? ? I|? ? ? ? ? x c ? I R T P]; subst; destruct I as [EQ|[]]; [discriminate|].
  injection EQ as <- <- <- <-. eauto.
Qed.
(** A present field with a name of a present union is present through it. *)
Lemma through : forall cenv fin root u tag len cs, Present cenv fin root (MUnion u tag len cs) -> forallb defaultsM root = true ->
  NoDup (map camel (flat_map fieldNames root)) ->
  forall nm t, In nm (fieldNames (MUnion u tag len cs)) -> Present cenv fin root (MField nm t) -> Present cenv fin [MUnion u tag len cs] (MField nm t).
Proof.
  intros cenv fin root u tag len cs P. remember (MUnion u tag len cs) as U. revert HeqU.
  induction P as [ms0 m I|ms0 u0 tag0 len0 cs0 x0 c0 m I R0 T0 P IH]; intros -> D ND nm t J Q.
  - inversion Q as [? ? IQ|? u1 tag1 len1 cs1 x1 c1 ? IQ R1 T1 P1]; subst.
    + pose proof (name_unique _ _ _ nm ND I IQ J (or_introl eq_refl)). discriminate.
    + assert (JN : In nm (fieldNames (MUnion u1 tag1 len1 cs1))).
      { pose proof (present_names _ _ _ _ _ _ P1 nm (or_introl eq_refl)) as X. cbn [fieldNames]. apply in_flat_map. exists c1.
        split; [eapply takes_in; eauto|]. now destruct c1. }
      rewrite (name_unique _ _ _ nm ND I IQ J JN). eapply P_case; eauto. now left.
  - assert (I0 : In c0 cs0) by (eapply takes_in; eauto).
    assert (J0 : In nm (fieldNames (MUnion u0 tag0 len0 cs0))).
    { pose proof (present_names _ _ _ _ _ _ P nm J) as X. cbn [fieldNames]. apply in_flat_map. exists c0. split; auto. now destruct c0. }
    rewrite forallb_forall in D. specialize (D _ I). destruct (defaults_case _ _ _ _ _ D I0) as [OD DC].
    inversion Q as [? ? IQ|? u1 tag1 len1 cs1 x1 c1 ? IQ R1 T1 P1]; subst.
    + pose proof (name_unique _ _ _ nm ND I IQ J0 (or_introl eq_refl)). discriminate.
    + assert (JN : In nm (fieldNames (MUnion u1 tag1 len1 cs1))).
      { pose proof (present_names _ _ _ _ _ _ P1 nm (or_introl eq_refl)) as X. cbn [fieldNames]. apply in_flat_map. exists c1.
        split; [eapply takes_in; eauto|]. now destruct c1. }
      pose proof (name_unique _ _ _ nm ND I IQ J0 JN) as EQ. injection EQ as <- <- <- <-.
      rewrite (refers_fun _ _ _ _ _ _ R1 R0) in T1. rewrite (takes_unique _ _ _ _ _ OD T1 T0) in P1.
      apply IH; auto. eapply union_nodup; eauto. eapply member_nodup; eauto.
Qed.
Lemma not_taken : forall cenv fin root u tag len cs, Present cenv fin root (MUnion u tag len cs) -> forallb defaultsM root = true ->
  NoDup (map camel (flat_map fieldNames root)) -> forall x c, refers camel cenv fin tag x -> takes cv cs x c ->
  forall c', In c' cs -> c' <> c -> forall nm, In nm (flat_map fieldNames (ucase_members c')) -> forall t, ~ Present cenv fin root (MField nm t).
Proof.
  intros cenv fin root u tag len cs P D ND x c R T c' I NE nm J t Q.
  assert (JU : In nm (fieldNames (MUnion u tag len cs))) by (cbn [fieldNames]; apply in_flat_map; exists c'; split; auto; now destruct c').
  pose proof (through _ _ _ _ _ _ _ P D ND _ _ JU Q) as Q'.
  apply present_case in Q' as (x' & c1 & R' & T' & P1).
  pose proof (present_default _ _ _ _ _ _ _ P D) as OD.
  rewrite (refers_fun _ _ _ _ _ _ R' R) in T'. rewrite (takes_unique _ _ _ _ _ OD T' T) in P1.
  assert (NU : NoDup (map camel (fieldNames (MUnion u tag len cs)))).
  { clear - P D ND. remember (MUnion u tag len cs) as U. revert HeqU. induction P as [ms0 m I0|ms0 u0 tag0 len0 cs0 x0 c0 m I0 R0 T0 P IH]; intros ->.
    - eapply member_nodup; eauto.
    - rewrite forallb_forall in D. specialize (D _ I0). assert (Ic : In c0 cs0) by (eapply takes_in; eauto).
      apply IH; auto; [eapply defaults_case; eauto|]. eapply union_nodup; eauto. eapply member_nodup; eauto. }
  cbn [fieldNames] in NU. rewrite map_flat in NU. apply NE.
  eapply (flat_unique (fun c => map camel (match c with UCase _ ms => flat_map fieldNames ms end))) with (y := camel nm); eauto.
  - eapply takes_in; eauto.
  - destruct c'. now apply in_map.
  - pose proof (present_names _ _ _ _ _ _ P1 nm (or_introl eq_refl)). destruct c. now apply in_map.
Qed.

Section Call.
Variable s : struct.
Variable fs0 : amap value.
Variable data : bytes.
Variable args : list value.
Hypothesis VC : validCall camel fs r s fs0 data args.
Hypothesis PT : ptrFiles fs = true.
Variable fs1 : amap value.
Variable rest : bytes.
Hypothesis HP : parses camel p s fs0 data args fs1 rest.
Notation cenv := (contextsOf s args).
Notation ms := (members_of s).
Notation Enc := (enc camel cv sv True cenv).
Notation EncM := (encM camel cv sv True cenv).
Notation EncMs := (encMs camel cv sv True cenv).
Notation EncCase := (encCase camel cv sv True cenv).
Notation EncN := (encN camel cv sv True cenv).
Notation EncAll := (encAll camel cv sv True cenv).

Lemma parts : checkMembers r (scontexts s) [] ms = true /\ forallb defaultsM ms = true /\ NoDup (map camel (flat_map fieldNames ms)).
Proof. apply checked_parts. eapply vc_check; eauto. Qed.
Lemma bytes1 : exists w, data = w ++ rest /\ encStruct camel cv sv True cenv s fs0 w rest fs1.
Proof. eapply the_bytes; eauto. Qed.

(** Direct members: the bytes before, of, and after them. *)
Lemma direct : forall ms1 m ms2, ms = ms1 ++ m :: ms2 ->
  exists w1 w w2 fsa fsb, data = w1 ++ w ++ w2 ++ rest /\ EncMs 0 ms1 fs0 w1 (w ++ w2 ++ rest) fsa /\
    EncM (blen w1) m fsa w (w2 ++ rest) fsb /\ EncMs (blen w1 + blen w) ms2 fsb w2 rest fs1 /\
    agreeOn camel (fieldNames m) fsb fs1 /\
    (forall f x, In f (refsOf m) -> refers camel cenv fsa f x -> refers camel cenv fs1 f x).
Proof.
  intros ms1 m ms2 E. destruct bytes1 as (w & ED & H). unfold encStruct in H. destruct parts as (C1 & C2 & C3). rewrite E in *.
  destruct (split_member camel r True (scontexts s) cenv fs1 ms1 m ms2 [] 0 fs0 w rest fs1 H C1) as
    (w1 & w' & w2 & fsa & fsb & -> & HM & H1 & H2 & CM & K1 & K2 & KM & _); auto.
  - intros a b [].
  - intros a _. reflexivity.
  - exists w1, w', w2, fsa, fsb. rewrite ED, <- !app_assoc. repeat (split; auto). eapply refs_final; eauto.
Qed.
Lemma direct_field : forall ms1 nm t ms2, ms = ms1 ++ MField nm t :: ms2 ->
  exists w1 w w2 fsa fsb v, data = w1 ++ w ++ w2 ++ rest /\ EncMs 0 ms1 fs0 w1 (w ++ w2 ++ rest) fsa /\
    Enc (blen w1) fsa t v w (w2 ++ rest) /\ EncMs (blen w1 + blen w) ms2 fsb w2 rest fs1 /\ alookup (camel nm) fs1 = Some v.
Proof.
  intros ms1 nm t ms2 E. destruct (direct _ _ _ E) as (w1 & w & w2 & fsa & fsb & D & H1 & HM & H2 & A & R).
  destruct (encM_field_inv _ _ _ _ _ _ _ _ _ _ _ HM) as (v & HT & ->).
  exists w1, w, w2, fsa, (setField (camel nm) v fsa), v. repeat (split; auto). rewrite <- (A nm) by now left. apply set_lookup.
  rewrite <- (setField_dom (camel nm) v fsa), <- (encMs_dom camel r True _ _ _ _ _ _ _ H2).
  rewrite (final_dom camel os fs r p PK _ _ _ _ VC _ _ PT HP), (vc_dom _ _ _ _ _ _ _ VC). apply in_map. rewrite E, flat_map_app.
  apply in_or_app. right. now left.
Qed.

(** C16. *)
Lemma constrained : forall nm sz l, Present cenv fs1 ms (MField nm (TInt sz (Some l))) ->
  exists x, alookup (camel nm) fs1 = Some (VInt x) /\ in_list cv l x.
Proof.
  intros nm sz l P. destruct (field_in camel os fs r p PK _ _ _ _ VC _ _ PT HP _ _ P) as (pre & w & tl & post & fs' & v & _ & _ & E & L & _).
  inversion E; subst. eauto.
Qed.
Lemma encN_in : forall pos f b vs w tl, EncN pos f b vs w tl -> forall v, In v vs ->
  exists pos' w1 tl1 pre more, w ++ tl = pre ++ w1 ++ tl1 ++ more /\ Enc pos' f b v w1 tl1.
Proof.
  intros pos f b vs. revert pos. induction vs as [|v0 vs IH]; intros pos w tl E v I; [destruct I|]. inversion E as [|? ? ? ? ? w1 w2 ? E1 E2]; subst.
  destruct I as [->|I].
  - exists pos, w1, (w2 ++ tl), [], []. rewrite app_nil_r, <- app_assoc. auto.
  - destruct (IH _ _ _ E2 _ I) as (pos' & w1' & tl1 & pre & more & EQ & EE). exists pos', w1', tl1, (w1 ++ pre), more.
    rewrite <- !app_assoc. rewrite EQ. auto.
Qed.
Lemma encAll_in : forall pos f b vs w, EncAll pos f b vs w -> forall v, In v vs ->
  exists pos' w1 tl1 pre, w = pre ++ w1 ++ tl1 /\ Enc pos' f b v w1 tl1.
Proof.
  intros pos f b vs. revert pos. induction vs as [|v0 vs IH]; intros pos w E v I; [destruct I|]. inversion E as [|? ? ? ? ? w1 w2 NE E1 E2]; subst.
  destruct I as [->|I].
  - exists pos, w1, w2, []. auto.
  - destruct (IH _ _ E2 _ I) as (pos' & w1' & tl1 & pre & EQ & EE). exists pos', w1', tl1, (w1 ++ pre).
    rewrite <- !app_assoc. rewrite <- EQ. auto.
Qed.
(** The elements of an array field. *)
Definition element (t : type) : option type := match t with TFixed b _ | TVar b _ => Some b | _ => None end.
Lemma elements : forall nm t b, element t = Some b -> Present cenv fs1 ms (MField nm t) ->
  exists vs fs', alookup (camel nm) fs1 = Some (VList vs) /\
    forall v, In v vs -> exists pos w tl pre more, data = pre ++ w ++ tl ++ more /\ Enc pos fs' b v w tl.
Proof.
  intros nm t b EL P. destruct (field_in camel os fs r p PK _ _ _ _ VC _ _ PT HP _ _ P) as (pre & w & tl & post & fs' & v & D & (more & ->) & E & L & _).
  destruct t; try discriminate; injection EL as ->;
    inversion E as [| | | | |? ? ? i k vs ? ? IV LN EN|? ? ? f vs ? ? R EN|? ? ? vs ? EA|? ? ? i k vs ? ? IV LN EA]; subst; exists vs, fs'; (split; [exact L|]);
    intros v I.
  - destruct (encN_in _ _ _ _ _ _ EN _ I) as (pos' & w1 & tl1 & pre1 & more1 & EQ & EE).
    exists pos', w1, tl1, (pre ++ pre1), (more1 ++ more). split; auto. transitivity (pre ++ (w ++ tl) ++ more); [now rewrite <- !app_assoc|].
    rewrite EQ. now rewrite <- !app_assoc.
  - destruct (encN_in _ _ _ _ _ _ EN _ I) as (pos' & w1 & tl1 & pre1 & more1 & EQ & EE).
    exists pos', w1, tl1, (pre ++ pre1), (more1 ++ more). split; auto. transitivity (pre ++ (w ++ tl) ++ more); [now rewrite <- !app_assoc|].
    rewrite EQ. now rewrite <- !app_assoc.
  - destruct (encAll_in _ _ _ _ _ EA _ I) as (pos' & w1 & tl1 & pre1 & EQ & EE).
    exists pos', w1, tl1, (pre ++ pre1), more. split; auto. rewrite EQ. cbn [app]. now rewrite <- !app_assoc.
  - destruct (encAll_in _ _ _ _ _ EA _ I) as (pos' & w1 & tl1 & pre1 & EQ & EE).
    exists pos', w1, tl1, (pre ++ pre1), (tl ++ more). split; auto. rewrite EQ. now rewrite <- !app_assoc.
Qed.
Lemma constrained_elements : forall nm t sz l, element t = Some (TInt sz (Some l)) -> Present cenv fs1 ms (MField nm t) ->
  exists vs, alookup (camel nm) fs1 = Some (VList vs) /\ forall v, In v vs -> exists x, v = VInt x /\ in_list cv l x.
Proof.
  intros nm t sz l EL P. destruct (elements _ _ _ EL P) as (vs & fs' & L & H). exists vs. split; auto. intros v I.
  destruct (H v I) as (pos & w & tl & pre & more & _ & E). inversion E; subst. eauto.
Qed.

(** C17. *)
Lemma case_in : forall u tag len cs, Present cenv fs1 ms (MUnion u tag len cs) ->
  exists x pre w tl more fsa fsb, data = pre ++ w ++ tl ++ more /\ refers camel cenv fs1 tag x /\
    (forall c, takes cv cs x c -> EncMs (blen pre) (ucase_members c) fsa w (match len with None => tl | Some _ => [] end) fsb) /\
    ((forall c, ~ takes cv cs x c) -> w = []).
Proof.
  intros u tag len cs P. destruct (union_in camel os fs r p PK _ _ _ _ VC _ _ PT HP _ _ _ _ P) as (pre & w & tl & post & fsa & fsb & D & (more & ->) & E & R & _).
  assert (OD : one_default cs) by (destruct parts as (_ & C2 & _); eapply present_default; eauto).
  inversion E as [|? ? ? ? x ? ? ? ? RT EC|? ? ? f ? x ? ? ? ? RT RL EC|? ? ? i k ? x ? ? ? ? RT IV LN EC| |]; subst;
    exists x, pre, w, tl, more, fsa, fsb; (split; [auto|]); (split; [auto|]);
    (inversion EC as [? ? ? c' ? ? ? ? T' HS|? ? ? ? ? _ NT]; subst; split;
     [intros c T; now rewrite (takes_unique _ _ _ _ _ OD T T')|intros NT; exfalso; eapply NT; eauto
     |intros c T; exfalso; eapply NT; eauto|auto]).
Qed.
(** Fields of cases that are not taken keep their values. *)
Lemma other_case_kept : forall u tag len cs x c c' nm, Present cenv fs1 ms (MUnion u tag len cs) -> refers camel cenv fs1 tag x ->
  takes cv cs x c -> In c' cs -> c' <> c -> In nm (flat_map fieldNames (ucase_members c')) -> alookup (camel nm) fs1 = alookup (camel nm) fs0.
Proof.
  intros u tag len cs x c c' nm P R T I NE J. destruct parts as (C1 & C2 & C3).
  apply (absent_kept camel os fs r p PK _ _ _ _ VC _ _ PT HP). intros nm' t E P'.
  assert (IN' : In nm' (flat_map fieldNames ms)) by (apply (present_names _ _ _ _ _ _ P'); now left).
  assert (IN : In nm (flat_map fieldNames ms)).
  { apply (present_names _ _ _ _ _ _ P). cbn [fieldNames]. apply in_flat_map. exists c'. split; auto. now destruct c'. }
  assert (nm' = nm) by (eapply (NoDup_map_inj camel); eauto). subst nm'.
  apply (not_taken cenv fs1 _ _ _ _ _ P C2 C3 _ _ R T _ I NE _ J _ P').
Qed.
(** A union none of whose cases is taken leaves all its fields alone. *)
Lemma no_case_kept : forall u tag len cs x nm, Present cenv fs1 ms (MUnion u tag len cs) -> refers camel cenv fs1 tag x ->
  (forall c, ~ takes cv cs x c) -> In nm (fieldNames (MUnion u tag len cs)) -> alookup (camel nm) fs1 = alookup (camel nm) fs0.
Proof.
  intros u tag len cs x nm P R NT J. destruct parts as (C1 & C2 & C3).
  apply (absent_kept camel os fs r p PK _ _ _ _ VC _ _ PT HP). intros nm' t E P'.
  assert (IN' : In nm' (flat_map fieldNames ms)) by (apply (present_names _ _ _ _ _ _ P'); now left).
  assert (IN : In nm (flat_map fieldNames ms)) by (now apply (present_names _ _ _ _ _ _ P)).
  assert (nm' = nm) by (eapply (NoDup_map_inj camel); eauto). subst nm'.
  pose proof (through cenv fs1 _ _ _ _ _ P C2 C3 _ _ J P') as Q.
  apply present_case in Q as (x' & c' & R' & T' & _).
  rewrite (refers_fun _ _ _ _ _ _ R R') in NT. eapply NT; eauto.
Qed.

(** C19. *)
Lemma length_exact : forall u tag f cs, Present cenv fs1 ms (MUnion u tag (Some (LRef f)) cs) ->
  exists pre w post x fsa fsb, data = pre ++ w ++ post /\ refers camel cenv fs1 f (blen w) /\
    refers camel cenv fs1 tag x /\ EncCase (blen pre) cs x fsa w [] fsb.
Proof.
  intros u tag f cs P. destruct (union_in camel os fs r p PK _ _ _ _ VC _ _ PT HP _ _ _ _ P) as (pre & w & tl & post & fsa & fsb & D & (more & ->) & E & R & RL).
  inversion E as [| |? ? ? ? ? x ? ? ? ? RT RL' EC| | |]; subst. exists pre, w, (tl ++ more), x, fsa, fsb. repeat (split; eauto).
Qed.
Lemma leftover_exact : forall ms1 u tag i cs ms2, ms = ms1 ++ MUnion u tag (Some (LLeftover i)) cs :: ms2 ->
  exists pre w post x fsa fsb, data = pre ++ w ++ post /\ int_value cv i = Some (blen post) /\ EncMs 0 ms1 fs0 pre (w ++ post) fsa /\
    refers camel cenv fs1 tag x /\ EncCase (blen pre) cs x fsa w [] fsb.
Proof.
  intros ms1 u tag i cs ms2 E. destruct (direct _ _ _ E) as (w1 & w & w2 & fsa & fsb & D & H1 & HM & H2 & A & R).
  inversion HM as [| | |? ? ? ? k ? x ? ? ? ? RT IV LN EC| |]; subst. exists w1, w, (w2 ++ rest), x, fsa, fsb. repeat (split; auto).
  apply R; auto. now left.
Qed.
Lemma leftover_array_exact : forall ms1 nm b i ms2, ms = ms1 ++ MField nm (TVar b (Some (LLeftover i))) :: ms2 ->
  exists pre w post vs fsa, data = pre ++ w ++ post /\ int_value cv i = Some (blen post) /\ EncMs 0 ms1 fs0 pre (w ++ post) fsa /\
    alookup (camel nm) fs1 = Some (VList vs) /\ EncAll (blen pre) fsa b vs w.
Proof.
  intros ms1 nm b i ms2 E. destruct (direct_field _ _ _ _ E) as (w1 & w & w2 & fsa & fsb & v & D & H1 & HT & H2 & L).
  inversion HT as [| | | | | | | |? ? ? ? k vs ? ? IV LN EA]; subst. exists w1, w, (w2 ++ rest), vs, fsa. repeat (split; auto).
Qed.

(** C20. *)
Lemma eos_end : forall ms1 ms2, ms = ms1 ++ MEOS :: ms2 -> rest = [].
Proof.
  intros ms1 ms2 E. destruct (direct _ _ _ E) as (w1 & w & w2 & fsa & fsb & D & H1 & HM & H2 & A & R).
  assert (EQ : w2 ++ rest = []) by (inversion HM; auto). apply app_eq_nil in EQ. tauto.
Qed.

(** C23. *)
Lemma nulterm : forall nm, Present cenv fs1 ms (MField nm TNul) ->
  exists pre str post, data = pre ++ str ++ 0 :: post /\ ~ In 0 str /\ alookup (camel nm) fs1 = Some (VStr str).
Proof.
  intros nm P. destruct (field_in camel os fs r p PK _ _ _ _ VC _ _ PT HP _ _ P) as (pre & w & tl & post & fs' & v & D & _ & E & L & _).
  inversion E; subst. exists pre, s0, post. split; [|auto]. now rewrite <- app_assoc.
Qed.
Lemma nulterm_direct : forall ms1 nm ms2, ms = ms1 ++ MField nm TNul :: ms2 ->
  exists pre str post fsa fsb, data = pre ++ str ++ 0 :: post /\ ~ In 0 str /\ alookup (camel nm) fs1 = Some (VStr str) /\
    EncMs 0 ms1 fs0 pre (str ++ 0 :: post) fsa /\ exists w2, post = w2 ++ rest /\ EncMs (blen pre + (blen str + 1)) ms2 fsb w2 rest fs1.
Proof.
  intros ms1 nm ms2 E. destruct (direct_field _ _ _ _ E) as (w1 & w & w2 & fsa & fsb & v & D & H1 & HT & H2 & L).
  inversion HT as [| |? ? str ? NI| | | | | |]; subst. exists w1, str, (w2 ++ rest), fsa, fsb. rewrite <- !app_assoc in *. cbn [app] in *. repeat (split; auto).
  exists w2. split; auto. replace (blen str + 1) with (blen (str ++ [0])) by (now rewrite blen_app). exact H2.
Qed.

(** C24. *)
Lemma position : forall ms1 nm ms2, ms = ms1 ++ MField nm TPtr :: ms2 ->
  exists w1 post fsa, data = w1 ++ post /\ EncMs 0 ms1 fs0 w1 post fsa /\ alookup (camel nm) fs1 = Some (VInt (blen w1)).
Proof.
  intros ms1 nm ms2 E. destruct (direct_field _ _ _ _ E) as (w1 & w & w2 & fsa & fsb & v & D & H1 & HT & H2 & L).
  inversion HT; subst. exists w1, (w2 ++ rest), fsa. repeat (split; auto).
Qed.

(** C25. *)
Lemma fixed_length : forall nm b i, Present cenv fs1 ms (MField nm (TFixed b i)) ->
  exists pre w post tl fs' vs, data = pre ++ w ++ post /\ alookup (camel nm) fs1 = Some (VList vs) /\ int_value cv i = Some (blen vs) /\
    EncN (blen pre) fs' b vs w tl.
Proof.
  intros nm b i P. destruct (field_in camel os fs r p PK _ _ _ _ VC _ _ PT HP _ _ P) as (pre & w & tl & post & fs' & v & D & _ & E & L & _).
  inversion E as [| | | | |? ? ? ? k vs ? ? IV LN EN| | |]; subst. exists pre, w, post, tl, fs', vs. repeat (split; auto).
Qed.
Lemma counted_length : forall nm b f, Present cenv fs1 ms (MField nm (TVar b (Some (LRef f)))) ->
  exists pre w post tl fs' vs, data = pre ++ w ++ post /\ alookup (camel nm) fs1 = Some (VList vs) /\ refers camel cenv fs1 f (blen vs) /\
    EncN (blen pre) fs' b vs w tl.
Proof.
  intros nm b f P. destruct (field_in camel os fs r p PK _ _ _ _ VC _ _ PT HP _ _ P) as (pre & w & tl & post & fs' & v & D & _ & E & L & R).
  inversion E as [| | | | | |? ? ? ? vs ? ? RF EN| |]; subst. exists pre, w, post, tl, fs', vs. repeat (split; auto).
  apply R; auto. now left.
Qed.
Lemma remainder_length : forall ms1 nm b ms2, ms = ms1 ++ MField nm (TVar b None) :: ms2 ->
  exists w1 w vs fsa, data = w1 ++ w /\ rest = [] /\ alookup (camel nm) fs1 = Some (VList vs) /\ EncMs 0 ms1 fs0 w1 w fsa /\
    EncAll (blen w1) fsa b vs w.
Proof.
  intros ms1 nm b ms2 E. destruct (direct_field _ _ _ _ E) as (w1 & w & w2 & fsa & fsb & v & D & H1 & HT & H2 & L).
  assert (EQ : w2 ++ rest = [] /\ exists vs, v = VList vs /\ EncAll (blen w1) fsa b vs w) by (inversion HT; subst; eauto).
  destruct EQ as (EQ & vs & -> & EA). apply app_eq_nil in EQ as [-> RE]. rewrite RE, !app_nil_r in *.
  exists w1, w, vs, fsa. repeat (split; auto).
Qed.

(** C26. *)
Lemma nested : roomyFiles fs r -> blen data <= maxData -> forall nm sn, Present cenv fs1 ms (MField nm (TStruct sn)) ->
  exists pre c more rest' s' args' fs', data = pre ++ c ++ more /\ sv sn = Some s' /\ passed s' cenv args' /\
    parses camel p s' (blank camel cv s') c args' fs' rest' /\ alookup (camel nm) fs1 = Some (VStruct (camel sn) fs').
Proof.
  intros SO M nm sn P. destruct (field_in camel os fs r p PK _ _ _ _ VC _ _ PT HP _ _ P) as (pre & w & tl & post & fs' & v & D & (more & ->) & E & L & _).
  destruct (vc_data _ _ _ _ _ _ _ VC) as [AB BL].
  rewrite D in M, BL, AB. rewrite !blen_app in M, BL. pose proof (blen_nonneg pre). pose proof (blen_nonneg more).
  destruct (nested_parses camel os fs r p PK PT SO s args (vc_args _ _ _ _ _ _ _ VC) _ _ _ _ _ _ _ E) as (s' & args' & fs'' & ES & -> & PA & VC' & PR).
  - split; [|rewrite blen_app; lia]. unfold all_bytes in *. rewrite !Forall_app in AB. apply Forall_app. tauto.
  - rewrite blen_app. lia.
  - exists pre, (w ++ tl), more, tl, s', args', fs''. rewrite D, <- !app_assoc. repeat (split; auto).
Qed.
(** A direct nested member: parsing goes on with the slice it returned. *)
Lemma nested_direct : roomyFiles fs r -> blen data <= maxData -> forall ms1 nm sn ms2, ms = ms1 ++ MField nm (TStruct sn) :: ms2 ->
  exists pre c fsa fsb w2 rest' s' args' fs', data = pre ++ c /\ EncMs 0 ms1 fs0 pre c fsa /\ sv sn = Some s' /\ passed s' cenv args' /\
    parses camel p s' (blank camel cv s') c args' fs' rest' /\ alookup (camel nm) fs1 = Some (VStruct (camel sn) fs') /\
    rest' = w2 ++ rest /\ EncMs (blen data - blen rest') ms2 fsb w2 rest fs1.
Proof.
  intros SO M ms1 nm sn ms2 EQ. destruct (direct_field _ _ _ _ EQ) as (w1 & w & w2 & fsa & fsb & v & D & H1 & E & H2 & L).
  destruct (vc_data _ _ _ _ _ _ _ VC) as [AB BL].
  rewrite D in M, BL, AB. rewrite !blen_app in M, BL. pose proof (blen_nonneg w1).
  destruct (nested_parses camel os fs r p PK PT SO s args (vc_args _ _ _ _ _ _ _ VC) _ _ _ _ _ _ _ E) as (s' & args' & fs'' & ES & -> & PA & VC' & PR).
  - split; [|rewrite !blen_app; lia]. unfold all_bytes in *. rewrite !Forall_app in AB. rewrite !Forall_app. tauto.
  - rewrite !blen_app. lia.
  - exists w1, (w ++ w2 ++ rest), fsa, fsb, w2, (w2 ++ rest), s', args', fs''. repeat (split; auto).
    replace (blen data - blen (w2 ++ rest)) with (blen w1 + blen w); auto. rewrite D, !blen_app. lia.
Qed.
(** Elements of arrays of structs. *)
Lemma nested_elements : roomyFiles fs r -> blen data <= maxData -> forall nm t sn, element t = Some (TStruct sn) -> Present cenv fs1 ms (MField nm t) ->
  exists vs, alookup (camel nm) fs1 = Some (VList vs) /\
    forall v, In v vs -> exists pre c more rest' s' args' fs', data = pre ++ c ++ more /\ sv sn = Some s' /\ passed s' cenv args' /\
      parses camel p s' (blank camel cv s') c args' fs' rest' /\ v = VStruct (camel sn) fs'.
Proof.
  intros SO M nm t sn EL P. destruct (elements _ _ _ EL P) as (vs & fs' & L & H). exists vs. split; auto. intros v I.
  destruct (H v I) as (pos & w & tl & pre & more & D & E). destruct (vc_data _ _ _ _ _ _ _ VC) as [AB BL].
  rewrite D in M, BL, AB. rewrite !blen_app in M, BL. pose proof (blen_nonneg pre). pose proof (blen_nonneg more).
  destruct (nested_parses camel os fs r p PK PT SO s args (vc_args _ _ _ _ _ _ _ VC) _ _ _ _ _ _ _ E) as (s' & args' & fs'' & ES & -> & PA & VC' & PR).
  - split; [|rewrite !blen_app; lia]. unfold all_bytes in *. rewrite !Forall_app in AB. rewrite !Forall_app. tauto.
  - rewrite !blen_app. lia.
  - exists pre, (w ++ tl), more, tl, s', args', fs''. rewrite D, <- !app_assoc. repeat (split; auto).
Qed.
End Call.
End Facts.
