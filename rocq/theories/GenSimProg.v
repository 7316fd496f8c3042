(** Whole programs: calling a generated Parse method does what the decoder does. *)
From Coq Require Import ZArith String List Bool Lia.
From Coq Require Import ZifyBool ZifyNat.
From Verif Require Import Base Ast IntervalsModel InspectModel InspectSpec InspectProofs GoLang GenModel GenDecode GenCheck GenSim GenSimBody.
Import ListNotations.
Open Scope string_scope.
Open Scope list_scope.
Open Scope Z_scope.
Ltac Zify.zify_post_hook ::= Z.div_mod_to_equations.

(* ---------- lists ---------- *)

Lemma mapM_in : forall {A B} (f : A -> outcome B) l bs a, mapM f l = Ok bs -> In a l ->
  exists b, f a = Ok b /\ In b bs.
Proof.
  induction l as [|x l IH]; intros bs a H I; [destruct I|]. cbn [mapM] in H.
  apply bind_ok in H as (b & Hb & H). apply bind_ok in H as (bs' & Hbs & H). injection H as <-.
  destruct I as [->|I]; [exists b; cbn; auto|]. destruct (IH _ _ Hbs I) as (b' & ? & ?). exists b'. cbn; auto.
Qed.
Lemma mapM_len : forall {A B} (f : A -> outcome B) l bs, mapM f l = Ok bs -> List.length bs = List.length l.
Proof.
  induction l as [|x l IH]; intros bs H; cbn [mapM] in H.
  - now injection H as <-.
  - apply bind_ok in H as (b & Hb & H). apply bind_ok in H as (bs' & Hbs & H). injection H as <-. cbn. f_equal. auto.
Qed.
Lemma mapM_map : forall {A B C} (f : A -> outcome B) (g : B -> C) (h : A -> C) l bs,
  mapM f l = Ok bs -> (forall a b, f a = Ok b -> g b = h a) -> map g bs = map h l.
Proof.
  intros A B C f g h. induction l as [|x l IH]; intros bs H E; cbn [mapM] in H.
  - now injection H as <-.
  - apply bind_ok in H as (b & Hb & H). apply bind_ok in H as (bs' & Hbs & H). injection H as <-.
    cbn [map]. f_equal; auto.
Qed.

Lemma alookup_in : forall {A} (l : amap A) k v, NoDup (map fst l) -> In (k, v) l -> alookup k l = Some v.
Proof.
  induction l as [|[k' v'] l IH]; intros k v ND I; [destruct I|]. cbn [alookup].
  inversion ND as [|? ? N ND']; subst. destruct I as [E|I].
  - injection E as -> ->. now rewrite String.eqb_refl.
  - destruct (String.eqb_spec k k') as [->|]; auto. exfalso. apply N. apply (in_map fst l (k', v) I).
Qed.
Lemma alookup_some_in : forall {A} (l : amap A) k v, alookup k l = Some v -> In (k, v) l.
Proof.
  induction l as [|[k' v'] l IH]; intros k v H; [discriminate|]. cbn [alookup] in H.
  destruct (String.eqb_spec k k') as [->|]; [injection H as ->; cbn; auto|cbn; auto].
Qed.

Lemma fieldNames_fieldsM : forall m, fieldNames m = map fst (fieldsM m).
Proof.
  induction m as [nm t|u tag len cs IH| | |] using member_ind'; try reflexivity.
  cbn [fieldNames fieldsM]. induction cs as [|[l ms] cs IHcs]; auto. cbn [flat_map].
  rewrite map_app, IHcs by (eapply Forall_inv_tail; eauto). f_equal.
  pose proof (Forall_inv IH) as F. cbn [ucase_members] in F. clear - F.
  induction ms as [|m ms IH]; auto. cbn [flat_map]. rewrite map_app, IH by (eapply Forall_inv_tail; eauto).
  f_equal. apply (Forall_inv F).
Qed.
Lemma fieldNames_list : forall ms, flat_map fieldNames ms = map fst (flat_map fieldsM ms).
Proof. induction ms as [|m ms IH]; auto. cbn [flat_map]. now rewrite map_app, <- IH, fieldNames_fieldsM. Qed.

Lemma NoDup_app_l : forall {A} (a b : list A), NoDup (a ++ b) -> NoDup a.
Proof. induction a; intros b H; [constructor|]. inversion H; subst. constructor; eauto. rewrite in_app_iff in *. tauto. Qed.
Lemma NoDup_app_r : forall {A} (a b : list A), NoDup (a ++ b) -> NoDup b.
Proof. induction a; intros b H; auto. inversion H; subst. eauto. Qed.
Lemma NoDup_app_disj : forall {A} (a b : list A) x, NoDup (a ++ b) -> In x a -> ~ In x b.
Proof.
  induction a; intros b x H I; [destruct I|]. inversion H; subst. destruct I as [->|I]; eauto.
  rewrite in_app_iff in *. tauto.
Qed.
Lemma NoDup_flat_map : forall {A B} (f : A -> list B) l a, NoDup (flat_map f l) -> In a l -> NoDup (f a).
Proof.
  induction l as [|x l IH]; intros a H I; [destruct I|]. cbn in H.
  destruct I as [->|I]; [eapply NoDup_app_l; eauto|]. apply IH; auto. eapply NoDup_app_r; eauto.
Qed.

Section Prog.
Variable camel : string -> string.
Variable r : resolver.

(* ---------- what the checks give ---------- *)

Lemma refWidth_local : forall ctxs k f z, refWidth r ctxs k f = Some z -> rscope f = "" -> In (rname f) (map fst k).
Proof.
  intros ctxs k f z H E. unfold refWidth in H. rewrite E in H. cbn in H.
  apply alookup_some_in in H. apply (in_map fst _ _ H).
Qed.

Definition apart (k : known) (ns : list string) : Prop :=
  forall x y, In x (map fst k) -> In y ns -> camel x <> camel y.

Lemma checkType_sim : forall cenv k nm t, checkType r (map fst cenv) k t = true -> apart k [nm] ->
  simType camel r cenv (camel nm) t.
Proof.
  intros cenv k nm t H A. destruct t as [| | | | |b s|b [[f|i]|]]; cbn [checkType simType] in *; auto.
  - now apply andb_true_iff in H.
  - apply andb_true_iff in H as [H1 H2]. split; auto. intros E.
    destruct (refWidth r (map fst cenv) k f) eqn:RW; [|discriminate].
    apply A; [eapply refWidth_local; eauto|cbn; auto].
  - now apply andb_true_iff in H.
Qed.

Definition kfix (ctxs : list string) := fix checkMembers (k : known) (ms : list member) {struct ms} : bool :=
  match ms with
  | [] => true
  | m1 :: ms' => checkMember r ctxs k m1 && checkMembers (addKnown k m1) ms'
  end.
Lemma kfix_eq : forall ctxs ms k, kfix ctxs k ms = checkMembers r ctxs k ms.
Proof. induction ms as [|m ms IH]; intros k; auto. cbn. now rewrite IH. Qed.

Definition mgood (cenv : amap value) (m : member) : Prop :=
  forall k, checkMember r (map fst cenv) k m = true -> apart k (fieldNames m) ->
  NoDup (map camel (fieldNames m)) ->
  (forall nm t, In (nm, t) (fieldsM m) -> simType camel r cenv (camel nm) t) /\
  (forall l, In l (caseLists m) -> l <> []).

Lemma addKnown_names : forall k m x, In x (map fst (addKnown k m)) -> In x (map fst k) \/ In x (fieldNames m).
Proof. intros k [nm []| | | |] x; cbn; auto; intros [<-|]; auto. Qed.

Lemma members_good : forall cenv ms, Forall (mgood cenv) ms -> forall k,
  checkMembers r (map fst cenv) k ms = true -> apart k (flat_map fieldNames ms) ->
  NoDup (map camel (flat_map fieldNames ms)) ->
  (forall nm t, In (nm, t) (flat_map fieldsM ms) -> simType camel r cenv (camel nm) t) /\
  (forall l, In l (flat_map caseLists ms) -> l <> []).
Proof.
  intros cenv. induction ms as [|m ms IH]; intros F k H A ND; [split; intros; contradiction|].
  cbn [checkMembers] in H. apply andb_true_iff in H as [H1 H2]. cbn [flat_map] in *. rewrite map_app in ND.
  destruct (Forall_inv F k H1) as [P1 P2].
  { intros x y Hx Hy. apply A; auto. apply in_or_app; auto. }
  { eapply NoDup_app_l; eauto. }
  destruct (IH (Forall_inv_tail F) _ H2) as [Q1 Q2].
  { intros x y Hx Hy. apply addKnown_names in Hx. destruct Hx as [Hx|Hx].
    - apply A; auto. apply in_or_app; auto.
    - intros E. apply (NoDup_app_disj _ _ (camel x) ND).
      + now apply in_map.
      + rewrite E. now apply in_map. }
  { eapply NoDup_app_r; eauto. }
  split.
  - intros nm t I. apply in_app_or in I. destruct I; auto.
  - intros l I. apply in_app_or in I. destruct I; auto.
Qed.

Lemma member_good : forall cenv m, mgood cenv m.
Proof.
  intros cenv. induction m as [nm t|u tag len cs IH| | |] using member_ind'; intros k H A ND;
    try (split; intros; contradiction).
  - split; [|intros; contradiction]. intros nm' t' [E|[]]. injection E as <- <-.
    cbn [checkMember] in H. eapply checkType_sim; eauto.
  - cbn [checkMember] in H. apply andb_true_iff in H as [_ H].
    rewrite forallb_forall in H. cbn [fieldNames fieldsM caseLists] in *.
    assert (C : forall l ms, In (UCase l ms) cs ->
      (forall nm t, In (nm, t) (flat_map fieldsM ms) -> simType camel r cenv (camel nm) t) /\
      (forall l, In l (flat_map caseLists ms) -> l <> [])).
    { intros l ms I. specialize (H _ I). cbn in H. apply andb_true_iff in H as [_ H].
      fold (kfix (map fst cenv)) in H. rewrite kfix_eq in H.
      rewrite Forall_forall in IH. apply (members_good cenv ms (IH _ I) k); auto.
      - intros x y Hx Hy. apply A; auto. apply in_flat_map. exists (UCase l ms). auto.
      - clear - ND I. rewrite <- (map_id (flat_map _ cs)), map_map in ND.
        assert (X : map (fun x => camel x) (flat_map (fun c => match c with UCase _ ms => flat_map fieldNames ms end) cs) =
                    flat_map (fun c => map camel (match c with UCase _ ms => flat_map fieldNames ms end)) cs).
        { clear. induction cs; auto. cbn. now rewrite map_app, IHcs. }
        rewrite X in ND. apply (NoDup_flat_map _ _ _ ND I). }
    split.
    + intros nm t I. apply in_flat_map in I as ([l ms] & I1 & I2). apply (proj1 (C _ _ I1)); auto.
    + intros l I. apply in_flat_map in I as ([l' ms] & I1 & I2). apply in_app_or in I2. destruct I2 as [I2|I2].
      * specialize (H _ I1). cbn in H. apply andb_true_iff in H as [H _].
        destruct l' as [l'|]; [|destruct I2]. destruct I2 as [<-|[]].
        intros ->. discriminate H.
      * apply (proj2 (C _ _ I1)); auto.
Qed.

(* ---------- declarations ---------- *)

Lemma memberDecl_fields : forall m ds, memberDecl camel r m = Ok ds ->
  map fst ds = map camel (fieldNames m) /\
  (forall nm t, In (nm, t) (fieldsM m) -> exists g, tipe camel r t = Ok g /\ In (camel nm, g) ds).
Proof.
  induction m as [nm t|u tag len cs IH| | |] using member_ind'; intros ds H.
  - cbn [memberDecl] in H. apply bind_ok in H as (g & Hg & H). injection H as <-. split; auto.
    intros nm' t' [E|[]]. injection E as <- <-. exists g. cbn; auto.
  - cbn [memberDecl fieldNames fieldsM] in *. revert ds H. induction cs as [|[l ms] cs IHcs]; intros ds H.
    + injection H as <-. split; auto. intros ? ? [].
    + apply bind_ok in H as (d1 & H1 & H). apply bind_ok in H as (d2 & H2 & H). injection H as <-.
      specialize (IHcs (Forall_inv_tail IH) _ H2) as [A B].
      assert (X : map fst d1 = map camel (flat_map fieldNames ms) /\
        (forall nm t, In (nm, t) (flat_map fieldsM ms) -> exists g, tipe camel r t = Ok g /\ In (camel nm, g) d1)).
      { pose proof (Forall_inv IH) as F. cbn [ucase_members] in F. clear - F H1. revert d1 H1.
        induction ms as [|m ms IHms]; intros d1 H.
        - injection H as <-. split; auto. intros ? ? [].
        - assert (SK : forall d, memberDecl camel r m = Ok d \/ ((m = MFail \/ m = MIgnore) /\ d = []) ->
            map fst d = map camel (fieldNames m) /\
            (forall nm t, In (nm, t) (fieldsM m) -> exists g, tipe camel r t = Ok g /\ In (camel nm, g) d)).
          { intros d [D|[[->| ->] ->]]; [apply (Forall_inv F); auto| |]; split; auto; intros ? ? []. }
          assert (X : exists a b, (memberDecl camel r m = Ok a \/ ((m = MFail \/ m = MIgnore) /\ a = [])) /\
            (fix membersDecl (ms : list member) : outcome (list (string * gtype)) :=
                   match ms with
                   | [] => Ok []
                   | MFail :: ms' | MIgnore :: ms' => membersDecl ms'
                   | m :: ms' => a <- memberDecl camel r m ;; b <- membersDecl ms' ;; Ok (a ++ b)
                   end) ms = Ok b /\ d1 = a ++ b).
          { destruct m; try (exists [], d1; split; [right; auto|split; [exact H|reflexivity]]);
              apply bind_ok in H as (a & Ha & H); apply bind_ok in H as (b & Hb & H); injection H as <-;
              exists a, b; auto. }
          destruct X as (a & b & Ha & Hb & ->). destruct (IHms (Forall_inv_tail F) _ Hb) as [P Q].
          destruct (SK _ Ha) as [P' Q']. cbn [flat_map]. rewrite !map_app, P, P'. split; auto.
          intros nm t I. apply in_app_or in I. destruct I as [I|I].
          + destruct (Q' _ _ I) as (g & G1 & G2). exists g. split; auto. apply in_or_app; auto.
          + destruct (Q _ _ I) as (g & G1 & G2). exists g. split; auto. apply in_or_app; auto. }
      destruct X as [P Q]. cbn [flat_map]. rewrite !map_app, A, P. split; auto.
      intros nm t I. apply in_app_or in I. destruct I as [I|I].
      * destruct (Q _ _ I) as (g & G1 & G2). exists g. split; auto. apply in_or_app; auto.
      * destruct (B _ _ I) as (g & G1 & G2). exists g. split; auto. apply in_or_app; auto.
  - injection H as <-. split; auto. intros ? ? [].
  - discriminate.
  - discriminate.
Qed.

Lemma structDecl_fields : forall s ds, structDecl camel r s = Ok ds ->
  map fst ds = map camel (flat_map fieldNames (members_of s)) /\
  (forall nm t, In (nm, t) (flat_map fieldsM (members_of s)) -> exists g, tipe camel r t = Ok g /\ In (camel nm, g) ds).
Proof.
  intros s ds H. unfold structDecl in H. apply bind_ok in H as (dss & H & E). injection E as <-.
  revert dss H. generalize (members_of s). induction l as [|m ms IH]; intros dss H; cbn [mapM] in H.
  - injection H as <-. split; auto. intros ? ? [].
  - apply bind_ok in H as (d & Hd & H). apply bind_ok in H as (dss' & Hds & H). injection H as <-.
    destruct (IH _ Hds) as [A B]. destruct (memberDecl_fields _ _ Hd) as [A' B'].
    cbn [flat_map concat]. rewrite !map_app, A, A'. split; auto.
    intros nm t I. apply in_app_or in I. destruct I as [I|I].
    + destruct (B' _ _ I) as (g & G1 & G2). exists g. split; auto. apply in_or_app; auto.
    + destruct (B _ _ I) as (g & G1 & G2). exists g. split; auto. apply in_or_app; auto.
Qed.

Lemma zeros_shaped : forall s ds, structDecl camel r s = Ok ds ->
  NoDup (map camel (flat_map fieldNames (members_of s))) ->
  (forall nm b i, In (nm, TFixed b i) (flat_map fieldsM (members_of s)) -> goodCount r i = true) ->
  shaped camel r (flat_map fieldsM (members_of s)) (zeros ds).
Proof.
  intros s ds H ND GC nm t I. destruct (structDecl_fields _ _ H) as [A B].
  destruct (B _ _ I) as (g & Hg & Hin). exists (zero g).
  assert (Z : alookup (camel nm) (zeros ds) = Some (zero g)).
  { apply alookup_in.
    - unfold zeros. rewrite map_map. cbn [fst]. fold (map fst ds). change (fun x : string * gtype => fst x) with (@fst string gtype). rewrite A. auto.
    - unfold zeros. apply in_map_iff. exists (camel nm, g). auto. }
  split; auto. destruct t as [| | | | |b i|]; cbn [shapeOf]; auto. cbn [tipe] in Hg.
  apply bind_ok in Hg as (k & Hk & Hg). apply bind_ok in Hg as (g' & Hg' & Hg). injection Hg as <-.
  cbn [zero]. eexists. split; [reflexivity|]. intros k' Hk'. rewrite Hk in Hk'. injection Hk' as <-.
  unfold blen. rewrite repeat_length. specialize (GC _ _ _ I). unfold goodCount in GC.
  apply integerOf_value in Hk. rewrite Hk in GC. lia.
Qed.

(* ---------- the program ---------- *)

Variable fs : list file.
Variable p : program.
Hypothesis Hgen : genProgram camel r fs = Ok p.
Hypothesis Hchk : checkFiles camel r fs = true.
Hypothesis Hres : forall nm s, Struct r nm = Some s -> Extern s = false -> sname s = nm /\ In s (definedStructs fs).

Lemma program_struct : forall s, In s (definedStructs fs) ->
  exists ds f ct, structDecl camel r s = Ok ds /\ parseFunc camel r s = Ok f /\ ctorFunc camel s = Ok ct /\
    alookup (camel (sname s)) (ptypes p) = Some ds /\
    alookup (camel (sname s)) (pmethods p) = Some f /\
    alookup (camel (sname s)) (pctors p) = Some ct.
Proof.
  intros s I. unfold genProgram in Hgen. apply bind_ok in Hgen as (cs & Hc & H). apply bind_ok in H as (ss & Hs & H).
  injection H as <-. cbn [ptypes pmethods pctors].
  destruct (mapM_in _ _ _ _ Hs I) as (x & Hx & Ix). unfold structureDecl in Hx.
  apply bind_ok in Hx as (ds & Hds & Hx). apply bind_ok in Hx as (f & Hf & Hx). apply bind_ok in Hx as (ct & Hct & Hx).
  injection Hx as <-. exists ds, f, ct. repeat split; auto.
  all: assert (ND : NoDup (map fst cs ++ map (fun x => fst (fst (fst x))) ss)).
  1,3,5: apply andb_true_iff in Hchk as [_ Hn]; apply nodupb_NoDup in Hn;
    rewrite (mapM_map _ (fun x => fst (fst (fst x))) (fun s => camel (sname s)) _ _ Hs),
            (mapM_map _ fst (fun c => camel (cname c)) _ _ Hc); auto.
  all: try (intros a b E; unfold contextDecl in E; apply bind_ok in E as (? & _ & E); injection E as <-; reflexivity).
  all: try (intros a b E; unfold structureDecl in E; apply bind_ok in E as (? & _ & E); apply bind_ok in E as (? & _ & E);
    apply bind_ok in E as (? & _ & E); injection E as <-; reflexivity).
  - apply alookup_in.
    + rewrite map_app, map_map. rewrite (map_ext _ (fun x => fst (fst (fst x)))); auto. intros [[[a b] c] e]; reflexivity.
    + apply in_or_app. right. apply in_map_iff. exists (camel (sname s), ds, f, ct). auto.
  - apply alookup_in.
    + rewrite map_map. rewrite (map_ext _ (fun x => fst (fst (fst x)))).
      * eapply NoDup_app_r; eauto.
      * intros [[[a b] c] e]; reflexivity.
    + apply in_map_iff. exists (camel (sname s), ds, f, ct). auto.
  - apply alookup_in.
    + rewrite map_map. rewrite (map_ext _ (fun x => fst (fst (fst x)))).
      * eapply NoDup_app_r; eauto.
      * intros [[[a b] c] e]; reflexivity.
    + apply in_map_iff. exists (camel (sname s), ds, f, ct). auto.
Qed.

Lemma check_struct : forall s, In s (definedStructs fs) -> checkStruct camel r s = true.
Proof.
  intros s I. unfold checkFiles in Hchk. apply andb_true_iff in Hchk as [H _]. apply andb_true_iff in H as [H _].
  rewrite forallb_forall in H. auto.
Qed.

Lemma ctxArgs_cases : forall cenv xs, (exists vs, ctxArgs cenv xs = Ok vs) \/ ctxArgs cenv xs = stuck.
Proof.
  intros cenv. induction xs as [|x xs IH]; cbn; [eauto|].
  destruct (alookup x cenv); cbn; auto. unfold ctxArgs in IH. destruct IH as [[vs ->]| ->]; cbn; eauto.
Qed.

Lemma map_fst_combine : forall {A B} (a : list A) (b : list B), List.length a = List.length b -> map fst (combine a b) = a.
Proof. induction a as [|x a IH]; intros [|y b] H; cbn in *; try discriminate; auto. f_equal. auto. Qed.

(** Calling a method. *)
Definition flds (s : struct) := flat_map fieldsM (members_of s).

Lemma struct_sim : forall m s args fs0 c, In s (definedStructs fs) ->
  List.length args = List.length (scontexts s) -> shaped camel r (flds s) fs0 ->
  (forall nm s' cenv c', Struct r nm = Some s' -> Extern s' = false ->
     decCall camel r m nm cenv c' = stuck \/
     exists fields args, ctxArgs cenv (scontexts s') = Ok args /\ alookup (camel nm) (ptypes p) = Some fields /\
       ressim (callMethod p m (VStruct (camel nm) (zeros fields)) (VBytes c') args) (decCall camel r m nm cenv c')) ->
  ressim (callMethod p (S m) (VStruct (camel (sname s)) fs0) (VBytes c) args)
         ('(fs1, c1) <- decStruct camel r (S m) s fs0 (combine (scontexts s) args) c ;;
          Ok (VStruct (camel (sname s)) fs1, c1)).
Proof.
  intros m s args fs0 c I LA SH HC. set (cenv := combine (scontexts s) args).
  destruct (program_struct s I) as (ds & f & ct & Hds & Hf & Hct & Lt & Lm & Lc).
  pose proof (check_struct s I) as CS. unfold checkStruct in CS.
  apply andb_true_iff in CS as [CS SC]. apply andb_true_iff in CS as [CS CX].
  apply andb_true_iff in CS as [CS ND]. apply andb_true_iff in CS as [CT CM].
  apply nodupb_NoDup in ND.
  unfold parseFunc in Hf. apply bind_ok in Hf as (rv & Hrv & Hf). apply bind_ok in Hf as (ms & Hms & Hf). injection Hf as <-.
  unfold checkScope in SC. rewrite Hrv in SC.
  apply andb_true_iff in SC as [SC S4]. apply andb_true_iff in SC as [SC S3]. apply andb_true_iff in SC as [S1 S2].
  set (locs := "cur" :: "data" :: "err" :: flat_map localsM (members_of s)) in *.
  apply negb_true_iff, memb_notin in S1. apply negb_true_iff, memb_notin in S3.
  pose proof (proj1 (disjointb_spec _ _) S2) as S2'.
  assert (MF : map fst cenv = scontexts s) by (apply map_fst_combine; auto).
  assert (HC1 : forall x v, alookup x cenv = Some v -> ~ In x locs /\ x <> rv).
  { intros x v H. apply alookup_some_in in H. apply (in_map fst) in H. cbn [fst] in H. rewrite MF in H.
    split; [auto|]. intros ->. auto. }
  cbn [callMethod decStruct]. rewrite Lm. cbn [frecv fparams fbody].
  set (e0 := (rv, VStruct (camel (sname s)) fs0) :: ("data", VBytes c) :: combine (scontexts s) args).
  cbn [app]. rewrite execs_cons. cbn [exec eval].
  assert (ED : alookup "data" e0 = Some (VBytes c)).
  { unfold e0. cbn [alookup]. destruct (String.eqb_spec "data" rv) as [E|]; [|reflexivity].
    exfalso. apply S1. rewrite <- E. cbn; auto. }
  rewrite ED. cbn [lift]. rewrite execs_app.
  assert (M0 : menv cenv c rv (camel (sname s)) (("cur", VBytes c) :: e0) fs0 c).
  { assert (RC : rv <> "cur") by (intros E; apply S1; rewrite E; cbn; auto).
    split; [split|].
    - reflexivity.
    - cbn [alookup]. exact ED.
    - intros x v H. destruct (HC1 _ _ H) as [N1 N2]. unfold e0. cbn [alookup].
      destruct (String.eqb_spec x "cur") as [->|]; [exfalso; apply N1; cbn; auto|].
      destruct (String.eqb_spec x rv); [congruence|].
      destruct (String.eqb_spec x "data") as [->|]; [exfalso; apply N1; cbn; auto|]. exact H.
    - unfold e0. cbn [alookup]. destruct (String.eqb_spec rv "cur"); [congruence|].
      now rewrite String.eqb_refl. }
  rewrite <- MF in CM.
  destruct (members_good cenv (members_of s)) with (k := @nil (string * Z)) as [G1 G2]; auto.
  { apply Forall_forall. intros x _. apply member_good. }
  { intros x y []. }
  pose proof (body_sim camel r (ptypes p) (callMethod p m) (decCall camel r m) m cenv c rv (camel (sname s)) locs
    ltac:(unfold locs; cbn; tauto) S1 HC1 (fun nm s' c' A B => HC nm s' cenv c' A B) (flds s)) as BS.
  assert (ND' : NoDup (map (fun f => camel (fst f)) (flds s))).
  { unfold flds. rewrite fieldNames_list, map_map in ND. exact ND. }
  specialize (BS ND' G1 (members_of s) ms (("cur", VBytes c) :: e0) fs0 c Hms).
  specialize (BS ltac:(intros y Hy; exact Hy) ltac:(intros y Hy; unfold locs; cbn; auto) G2 M0 SH).
  fold cenv. destruct (execs (ptypes p) (callMethod p m) m ms (("cur", VBytes c) :: e0)) as [e1 res].
  destruct (decMembers camel r (decCall camel r m) m cenv (blen c) (members_of s) fs0 c) as [[fs1 c1]|er|pm|];
    cbn [sim bind ressim] in BS |- *.
  - unfold good in BS. cbn [fst snd] in BS. injection BS as -> ->.
    assert (RC : rv <> "cur") by (intros E; apply S1; rewrite E; cbn; auto).
    unfold upd. rewrite assign_push by auto. cbn [assign].
    change (String.eqb "cur" "cur") with true. cbn iota. rewrite execs_cons. unfold cur. cbn [exec eval alookup].
    change (String.eqb "cur" "cur") with true. cbn [lift eval].
    rewrite leave_cons by apply assign_len. unfold e0. cbn [assign]. rewrite String.eqb_refl. reflexivity.
  - destruct BS as (e' & E). injection E as -> ->. eauto.
  - destruct BS as [->|(e' & E)]; [auto|]. injection E as -> ->. eauto.
  - destruct BS as (e' & E). injection E as -> ->. eauto.
Qed.

Lemma good_counts : forall s, In s (definedStructs fs) ->
  forall nm b i, In (nm, TFixed b i) (flds s) -> goodCount r i = true.
Proof.
  intros s I nm b i If. pose proof (check_struct s I) as CS. unfold checkStruct in CS.
  apply andb_true_iff in CS as [CS SC]. apply andb_true_iff in CS as [CS CX].
  apply andb_true_iff in CS as [CS ND]. apply andb_true_iff in CS as [CT CM]. apply nodupb_NoDup in ND.
  rewrite <- (map_fst_combine (scontexts s) (map (fun _ => VNil) (scontexts s))) in CM by (now rewrite map_length).
  destruct (members_good (combine (scontexts s) (map (fun _ => VNil) (scontexts s))) (members_of s))
    with (k := @nil (string * Z)) as [G1 G2]; auto.
  { apply Forall_forall. intros x _. apply member_good. }
  { intros x y []. }
  specialize (G1 _ _ If). apply G1.
Qed.

Lemma struct_zeros : forall s ds, In s (definedStructs fs) -> structDecl camel r s = Ok ds ->
  shaped camel r (flds s) (zeros ds).
Proof.
  intros s ds I H. apply zeros_shaped; auto.
  - pose proof (check_struct s I) as CS. unfold checkStruct in CS.
    apply andb_true_iff in CS as [CS SC]. apply andb_true_iff in CS as [CS CX].
    apply andb_true_iff in CS as [CS ND]. now apply nodupb_NoDup in ND.
  - apply good_counts. auto.
Qed.

Lemma call_sim : forall m nm s cenv c, Struct r nm = Some s -> Extern s = false ->
  decCall camel r m nm cenv c = stuck \/
  exists fields args, ctxArgs cenv (scontexts s) = Ok args /\ alookup (camel nm) (ptypes p) = Some fields /\
    ressim (callMethod p m (VStruct (camel nm) (zeros fields)) (VBytes c) args) (decCall camel r m nm cenv c).
Proof.
  induction m as [|m IH]; intros nm s cenv c HS HE; cbn [decCall]; rewrite HS.
  all: destruct (Hres _ _ HS HE) as [SN HD];
    destruct (program_struct s HD) as (ds & f & ct & Hds & Hf & Hct & Lt & Lm & Lc); rewrite Hds; cbn [bind];
    destruct (ctxArgs_cases cenv (scontexts s)) as [[args HA]| ->]; [|left; reflexivity];
    rewrite HA; cbn [bind]; right; exists ds, args; rewrite SN in *; split; [auto|]; split; [auto|].
  - cbn [callMethod ressim]. rewrite Lm. eauto.
  - rewrite <- SN. apply (struct_sim m s args (zeros ds) c); auto.
    + unfold ctxArgs in HA. now apply mapM_len in HA.
    + apply struct_zeros; auto.
Qed.

(** x.Parse(data, contexts...). *)
Theorem method_sim : forall m s args fs0 c, In s (definedStructs fs) ->
  List.length args = List.length (scontexts s) -> shaped camel r (flds s) fs0 ->
  ressim (callMethod p m (VStruct (camel (sname s)) fs0) (VBytes c) args)
         ('(fs1, c1) <- decStruct camel r m s fs0 (combine (scontexts s) args) c ;;
          Ok (VStruct (camel (sname s)) fs1, c1)).
Proof.
  intros [|m] s args fs0 c I LA SH.
  - destruct (program_struct s I) as (ds & f & ct & Hds & Hf & Hct & Lt & Lm & Lc).
    cbn [callMethod decStruct ressim bind]. rewrite Lm. eauto.
  - apply struct_sim; auto. intros. apply call_sim; auto.
Qed.
End Prog.
