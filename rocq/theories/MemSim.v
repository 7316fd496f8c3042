(** How the values of GoLang.v are represented in the memory of GoMem.v, and that
    expressions and assignments respect it. *)
From Coq Require Import ZArith String List Bool Lia ZifyBool ZifyNat Permutation.
From Verif Require Import Base GoLang GoMem.
Import ListNotations.
Open Scope string_scope.
Open Scope list_scope.
Open Scope Z_scope.

(** What a nil value of the one machine may be on the other: nil, or what the
    receiver held before the call; and which pieces of arrays may be read, from
    where to where. *)
Class Old : Type := mkOld {
  old : hval -> Prop;
  old_nil : old HNil;
  win : loc -> nat -> nat -> Prop;
  win_sub : forall l i j i' j', win l i j -> (i <= i')%nat -> (i' <= j')%nat -> (j' <= j)%nat -> win l i' j' }.
Section Old.
Context {oldI : Old}.

(** The value [v] is represented by [hv] together with the objects [fp], which
    belong to it alone. *)
Inductive own (H : heap) : value -> hval -> list loc -> Prop :=
| own_int z : own H (VInt z) (HInt z) []
| own_str s : own H (VStr s) (HStr s) []
| own_nil hv : old hv -> own H VNil hv []
| own_struct p ty fs hfs fp :
    nth_error H p = Some (OStruct ty hfs) -> map fst fs = map fst hfs -> owns H (map snd fs) (map snd hfs) fp ->
    own H (VStruct ty fs) (HPtr p) (p :: fp)
| own_arr vs hvs fp : owns H vs hvs fp -> own H (VList vs) (HArr hvs) fp
| own_slice vs base off len cap l fp :
    nth_error H base = Some (OArray l) -> (len <= cap)%nat -> (off + cap <= List.length l)%nat ->
    owns H vs (firstn len (skipn off l)) fp -> own H (VList vs) (HSlice base off len cap) (base :: fp)
with owns (H : heap) : list value -> list hval -> list loc -> Prop :=
| owns_nil : owns H [] [] []
| owns_cons v hv fp vs hvs fps : own H v hv fp -> owns H vs hvs fps -> owns H (v :: vs) (hv :: hvs) (fp ++ fps).
Scheme own_mut := Minimality for own Sort Prop with owns_mut := Minimality for owns Sort Prop.
Combined Scheme own_owns from own_mut, owns_mut.

(** Memory that nothing is written to: the input and the contexts. *)
Inductive shr (ro : loc -> Prop) (H : heap) : value -> hval -> Prop :=
| shr_int z : shr ro H (VInt z) (HInt z)
| shr_bool b : shr ro H (VBool b) (HBool b)
| shr_nil : shr ro H VNil HNil
| shr_err m : shr ro H (VErr m) (HErr m)
| shr_bytes b base off len cap :
    len = List.length b -> (len <= cap)%nat ->
    (b = [] \/ (ro base /\ win base off (off + len)) /\ exists l, nth_error H base = Some (OArray l) /\ firstn len (skipn off l) = map HInt b) ->
    shr ro H (VBytes b) (HSlice base off len cap)
| shr_struct ty fs p hfs :
    ro p -> nth_error H p = Some (OStruct ty hfs) ->
    Forall2 (fun f g => fst f = fst g /\ exists z, snd f = VInt z /\ snd g = HInt z) fs hfs ->
    shr ro H (VStruct ty fs) (HPtr p).

Definition agree (P : loc -> Prop) (H H' : heap) : Prop := forall l, P l -> nth_error H' l = nth_error H l.

Lemma own_agree_both : forall H H',
  (forall v hv fp, own H v hv fp -> agree (fun l => In l fp) H H' -> own H' v hv fp) /\
  (forall vs hvs fp, owns H vs hvs fp -> agree (fun l => In l fp) H H' -> owns H' vs hvs fp).
Proof.
  intros H H'. apply own_owns; intros; try (constructor; fail); try (apply own_nil; assumption).
  - econstructor; eauto. rewrite H4 by now left. auto. apply H3. intros l I. apply H4. now right.
  - constructor. auto.
  - econstructor; eauto. rewrite H5 by now left. auto. apply H4. intros l0 I. apply H5. now right.
  - constructor; [apply H1|apply H3]; intros l I; apply H4; apply in_or_app; auto.
Qed.
Lemma own_agree : forall H H' v hv fp, own H v hv fp -> agree (fun l => In l fp) H H' -> own H' v hv fp.
Proof. intros H H'. exact (proj1 (own_agree_both H H')). Qed.
Lemma owns_agree : forall H H' vs hvs fp, owns H vs hvs fp -> agree (fun l => In l fp) H H' -> owns H' vs hvs fp.
Proof. intros H H'. exact (proj2 (own_agree_both H H')). Qed.
Lemma own_bound_both : forall H,
  (forall v hv fp, own H v hv fp -> forall l, In l fp -> (l < List.length H)%nat) /\
  (forall vs hvs fp, owns H vs hvs fp -> forall l, In l fp -> (l < List.length H)%nat).
Proof.
  intros H. apply own_owns; cbn [In]; intros; try contradiction; auto.
  - destruct H4 as [<-|I]; auto. apply nth_error_Some. congruence.
  - destruct H5 as [<-|I]; auto. apply nth_error_Some. congruence.
  - apply in_app_or in H4 as [I|I]; auto.
Qed.
Lemma own_bound : forall H v hv fp, own H v hv fp -> forall l, In l fp -> (l < List.length H)%nat.
Proof. intros H. exact (proj1 (own_bound_both H)). Qed.
Lemma shr_agree : forall ro H H' v hv, shr ro H v hv -> agree ro H H' -> shr ro H' v hv.
Proof.
  intros ro H H' v hv [] A; try (constructor; fail).
  - constructor; auto. destruct H2 as [E|((R & W) & l & L1 & L2)]; auto. right. split; [split; auto|]. exists l. rewrite A; auto.
  - econstructor; eauto. rewrite A; auto.
Qed.

Lemma own_struct_inv : forall H ty fs hv fp, own H (VStruct ty fs) hv fp -> exists p hfs fp', hv = HPtr p /\ fp = p :: fp' /\
  nth_error H p = Some (OStruct ty hfs) /\ map fst fs = map fst hfs /\ owns H (map snd fs) (map snd hfs) fp'.
Proof. intros H ty fs hv fp O. inversion O; subst. eauto 10. Qed.
Lemma own_list_inv : forall H vs hv fp, own H (VList vs) hv fp ->
  (exists hvs, hv = HArr hvs /\ owns H vs hvs fp) \/
  (exists base off len cap l fp', hv = HSlice base off len cap /\ fp = base :: fp' /\ nth_error H base = Some (OArray l) /\
     (len <= cap)%nat /\ (off + cap <= List.length l)%nat /\ owns H vs (firstn len (skipn off l)) fp').
Proof. intros H vs hv fp O. inversion O; subst; [left; eauto|right; eauto 15]. Qed.
Lemma shr_struct_inv : forall ro H ty fs hv, shr ro H (VStruct ty fs) hv -> exists p hfs, hv = HPtr p /\ ro p /\
  nth_error H p = Some (OStruct ty hfs) /\ Forall2 (fun f g => fst f = fst g /\ exists z, snd f = VInt z /\ snd g = HInt z) fs hfs.
Proof. intros ro H ty fs hv O. inversion O; subst. eauto 10. Qed.

(** Lists of values, one element at a time. *)
Lemma updN_length : forall {A} (l : list A) k v, List.length (updN l k v) = List.length l.
Proof. induction l; destruct k; cbn; auto. Qed.
Lemma updN_same : forall {A} (l : list A) k v, nth_error l k = Some v -> updN l k v = l.
Proof. induction l; destruct k; cbn; intros v E; try discriminate; [congruence|]. f_equal. auto. Qed.
Lemma updN_nth : forall {A} (l : list A) k v j, nth_error (updN l k v) j =
  if Nat.eqb j k then (if Nat.ltb k (List.length l) then Some v else None) else nth_error l j.
Proof.
  induction l as [|a l IH]; intros k v j.
  - destruct k; cbn [updN List.length]; (replace (Nat.ltb _ 0) with false by reflexivity); destruct (Nat.eqb j _) eqn:E; auto; now destruct j.
  - destruct k as [|k]; cbn [updN].
    + destruct j as [|j]; reflexivity.
    + destruct j as [|j]; [reflexivity|]. cbn [nth_error]. rewrite IH. reflexivity.
Qed.
Lemma owns_length : forall H vs hvs fp, owns H vs hvs fp -> List.length vs = List.length hvs.
Proof. induction vs; intros hvs fp O; inversion O; subst; cbn; f_equal; eauto. Qed.
Lemma owns_split : forall H vs hvs fp, owns H vs hvs fp -> forall k v, nth_error vs k = Some v ->
  exists hv fp0 rest, nth_error hvs k = Some hv /\ own H v hv fp0 /\ Permutation fp (fp0 ++ rest) /\
    forall H1 v1 hv1 fp1, agree (fun l => In l rest) H H1 -> own H1 v1 hv1 fp1 ->
      exists fp', owns H1 (updN vs k v1) (updN hvs k hv1) fp' /\ Permutation fp' (fp1 ++ rest).
Proof.
  induction vs as [|v0 vs IH]; intros hvs fp O k v E; [now destruct k|]. inversion O; subst. destruct k as [|k]; cbn [nth_error updN] in *.
  - inversion E; subst. exists hv, fp0, fps. split; auto. split; auto. split; auto.
    intros H1 v1 hv1 fp1 A O1. exists (fp1 ++ fps). split; auto. constructor; auto. eapply owns_agree; eauto.
  - destruct (IH _ _ H5 _ _ E) as (hv' & fp' & rest & N & O1 & P & K). exists hv', fp', (fp0 ++ rest). split; auto. split; auto.
    split. { rewrite P. rewrite !app_assoc. apply Permutation_app_tail. apply Permutation_app_comm. }
    intros H1 v1 hv1 fp1 A O2. destruct (K H1 v1 hv1 fp1) as (fp2 & O3 & P2); auto. { intros l I. apply A, in_or_app. auto. }
    exists (fp0 ++ fp2). split.
    + constructor; auto. eapply own_agree; eauto. intros l I. apply A, in_or_app. auto.
    + rewrite P2. rewrite !app_assoc. apply Permutation_app_tail. apply Permutation_app_comm.
Qed.

(** The position of a name in a list of names. *)
Fixpoint index (x : string) (l : list string) : option nat :=
  match l with
  | [] => None
  | y :: l' => if String.eqb x y then Some O else match index x l' with Some k => Some (S k) | None => None end
  end.
Lemma lookup_index : forall {A} x (m : list (string * A)),
  alookup x m = match index x (map fst m) with Some k => nth_error (map snd m) k | None => None end.
Proof.
  intros A x. induction m as [|[y a] m IH]; cbn [alookup map index fst]; auto. destruct (String.eqb x y); auto.
  rewrite IH. destruct (index x (map fst m)); auto.
Qed.
Lemma hassign_index : forall {A} x (v : A) m, map fst (hassign x v m) = map fst m /\
  map snd (hassign x v m) = match index x (map fst m) with Some k => updN (map snd m) k v | None => map snd m end.
Proof.
  intros A x v. induction m as [|[y a] m [IH1 IH2]]; cbn [hassign map index fst]; auto.
  destruct (String.eqb x y); cbn [map fst snd updN]; split; auto; [now rewrite IH1|]. rewrite IH2.
  destruct (index x (map fst m)); reflexivity.
Qed.
Lemma assign_hassign : forall x v e, assign x v e = hassign x v e.
Proof. intros x v. induction e as [|[y w] e IH]; cbn; auto. now rewrite IH. Qed.
Lemma hassign_same : forall {A} x (v : A) m, alookup x m = Some v -> hassign x v m = m.
Proof.
  intros A x v. induction m as [|[y a] m IH]; cbn [alookup hassign]; auto. destruct (String.eqb x y) eqn:E; [congruence|].
  intros L. now rewrite IH.
Qed.
Lemma index_bound : forall x l k, index x l = Some k -> (k < List.length l)%nat.
Proof.
  induction l as [|y l IH]; cbn; intros k E; [discriminate|]. destruct (String.eqb x y); [inversion E; lia|].
  destruct (index x l) as [j|]; [|discriminate]. inversion E; subst. specialize (IH j eq_refl). lia.
Qed.
Lemma hset_other : forall H p o, agree (fun l => l <> p) H (hset p o H).
Proof. intros H p o l N. unfold hset. rewrite updN_nth. destruct (Nat.eqb_spec l p); [contradiction|reflexivity]. Qed.
Lemma hset_at : forall H p o o0, nth_error H p = Some o0 -> nth_error (hset p o H) p = Some o.
Proof.
  intros H p o o0 E. unfold hset. rewrite updN_nth, Nat.eqb_refl. assert (p < List.length H)%nat by (apply nth_error_Some; congruence).
  destruct (Nat.ltb_spec p (List.length H)); [reflexivity|lia].
Qed.
Lemma hset_length : forall H p o, List.length (hset p o H) = List.length H.
Proof. intros. apply updN_length. Qed.

(** What a variable is to the code that runs: [KMine] owns what it holds, [KSelf]
    too and is not assigned to, [KShr] holds a number, an error, or something
    that is never written to, [KFrozen] is not used. *)
Inductive kind : Type := KMine | KSelf | KShr | KFrozen.
Definition owner (k : kind) : bool := match k with KMine | KSelf => true | _ => false end.
Definition ctx := list (string * kind).

Section Env.
Variable ro : loc -> Prop.
Variable self : hval.

(** Variables with what they own, and the frozen ones. *)
Inductive envR (H : heap) : ctx -> env -> henv -> list loc -> list (value * hval) -> Prop :=
| envR_nil : envR H [] [] [] [] []
| envR_shr x v hv G e he fp fz : shr ro H v hv -> envR H G e he fp fz -> envR H ((x, KShr) :: G) ((x, v) :: e) ((x, hv) :: he) fp fz
| envR_own x k v hv fp0 G e he fp fz : owner k = true -> (k = KSelf -> hv = self) -> own H v hv fp0 -> envR H G e he fp fz ->
    envR H ((x, k) :: G) ((x, v) :: e) ((x, hv) :: he) (fp0 ++ fp) fz
| envR_frz x v hv G e he fp fz : envR H G e he fp fz -> envR H ((x, KFrozen) :: G) ((x, v) :: e) ((x, hv) :: he) fp ((v, hv) :: fz).

Lemma envR_agree : forall H H' G e he fp fz, envR H G e he fp fz -> agree (fun l => In l fp) H H' -> agree ro H H' -> envR H' G e he fp fz.
Proof.
  intros H H' G e he fp fz E. induction E; intros A B; [constructor|apply envR_shr|apply envR_own|apply envR_frz]; auto.
  - eapply shr_agree; eauto.
  - eapply own_agree; eauto. intros l I. apply A, in_or_app; auto.
  - apply IHE; auto. intros l I. apply A, in_or_app; auto.
Qed.
Lemma envR_bound : forall H G e he fp fz, envR H G e he fp fz -> forall l, In l fp -> (l < List.length H)%nat.
Proof.
  intros H G e he fp fz E. induction E; cbn [In]; intros l I; try contradiction; auto.
  apply in_app_or in I as [I|I]; auto. eapply own_bound; eauto.
Qed.
Lemma envR_length : forall H G e he fp fz, envR H G e he fp fz -> List.length e = List.length he /\ List.length e = List.length G.
Proof. intros H G e he fp fz E. induction E; cbn; intuition. Qed.

Lemma lookup_shr : forall H G e he fp fz, envR H G e he fp fz -> forall x v, alookup x G = Some KShr -> alookup x e = Some v ->
  exists hv, alookup x he = Some hv /\ shr ro H v hv.
Proof.
  intros H G e he fp fz E. induction E; cbn [alookup]; intros y w M L; [discriminate| | |];
    (destruct (String.eqb_spec y x); [inversion M; inversion L; subst; try discriminate; eauto|eauto]).
Qed.
Lemma assign_shr : forall H G e he fp fz, envR H G e he fp fz -> forall x v hv, alookup x G = Some KShr -> shr ro H v hv ->
  envR H G (assign x v e) (hassign x hv he) fp fz.
Proof.
  intros H G e he fp fz E. induction E; cbn [assign hassign alookup]; intros y w hw M S.
  - constructor.
  - destruct (String.eqb_spec y x); apply envR_shr; auto.
  - destruct (String.eqb_spec y x); [|apply envR_own; auto]. inversion M; subst. discriminate.
  - destruct (String.eqb_spec y x); [congruence|]. apply envR_frz; auto.
Qed.
Lemma lookup_own : forall H G e he fp fz, envR H G e he fp fz -> forall x k v, alookup x G = Some k -> owner k = true -> alookup x e = Some v ->
  exists hv fp0 rest, alookup x he = Some hv /\ own H v hv fp0 /\ Permutation fp (fp0 ++ rest) /\
    forall H1 v1 hv1 fp1, agree (fun l => In l rest) H H1 -> agree ro H H1 -> own H1 v1 hv1 fp1 -> (k = KSelf -> hv1 = hv) ->
      exists fp', envR H1 G (assign x v1 e) (hassign x hv1 he) fp' fz /\ Permutation fp' (fp1 ++ rest).
Proof.
  intros H G e he fp fz E. induction E; cbn [alookup assign hassign]; intros y k0 w M MK L; [discriminate| | |].
  - destruct (String.eqb_spec y x); [inversion M; subst; discriminate|]. destruct (IHE y k0 w M MK L) as (hv' & fp0 & rest & L1 & O1 & P & K).
    exists hv', fp0, rest. split; auto. split; auto. split; auto. intros H2 v1 hv1 fp1 A B O S. destruct (K H2 v1 hv1 fp1 A B O S) as (fp' & E' & P').
    exists fp'. split; auto. apply envR_shr; auto. eapply shr_agree; eauto.
  - destruct (String.eqb_spec y x).
    + subst. inversion M; inversion L; subst. exists hv, fp0, fp. split; auto. split; auto. split; auto. intros H3 v1 hv1 fp1 A B O S.
      exists (fp1 ++ fp). split; auto. apply envR_own; auto. { intros ->. rewrite S; auto. } eapply envR_agree; eauto.
    + destruct (IHE y k0 w M MK L) as (hv' & fp' & rest & L1 & O1 & P & K). exists hv', fp', (fp0 ++ rest). split; auto. split; auto. split.
      { rewrite P, !app_assoc. apply Permutation_app_tail, Permutation_app_comm. }
      intros H3 v1 hv1 fp1 A B O S. destruct (K H3 v1 hv1 fp1) as (fp2 & E' & P'); auto. { intros l I. apply A, in_or_app. auto. }
      exists (fp0 ++ fp2). split.
      * apply envR_own; auto. eapply own_agree; eauto. intros l I. apply A, in_or_app. auto.
      * rewrite P', !app_assoc. apply Permutation_app_tail, Permutation_app_comm.
  - destruct (String.eqb_spec y x); [inversion M; subst; discriminate|]. destruct (IHE y k0 w M MK L) as (hv' & fp0 & rest & L1 & O1 & P & K).
    exists hv', fp0, rest. split; auto. split; auto. split; auto. intros H2 v1 hv1 fp1 A B O S. destruct (K H2 v1 hv1 fp1 A B O S) as (fp' & E' & P').
    exists fp'. split; auto. apply envR_frz; auto.
Qed.

Definition isOwner (G : ctx) (x : string) : bool := match alookup x G with Some k => owner k | None => false end.
Definition isShr (G : ctx) (x : string) : bool := match alookup x G with Some KShr => true | _ => false end.
Definition isSelf (G : ctx) (x : string) : bool := match alookup x G with Some KSelf => true | _ => false end.
Lemma owner_is : forall G x, isOwner G x = true -> exists k, alookup x G = Some k /\ owner k = true.
Proof. intros G x. unfold isOwner. destruct (alookup x G) as [k|]; [eauto|discriminate]. Qed.
Lemma shr_is : forall G x, isShr G x = true -> alookup x G = Some KShr.
Proof. intros G x. unfold isShr. destruct (alookup x G) as [[]|]; congruence. Qed.

(** Expressions that allocate nothing, and test only shared variables for nil. *)
Fixpoint pureE (G : ctx) (x : expr) : bool :=
  match x with
  | EInt _ | ENil | EError _ => true
  | EVar x => isOwner G x || isShr G x
  | ESel a _ | ELen a | EToInt a | ENot a | EParen a | EBigEndian _ a | EIndexByte a _ | EStringOf a => pureE G a
  | EIdx a b | EBin _ a b | EFrom a b | ETo a b => pureE G a && pureE G b
  | ENotNil (EVar x) => isShr G x
  | _ => false
  end.

Definition brw (H : heap) (v : value) (hv : hval) : Prop := (exists fp, own H v hv fp) \/ shr ro H v hv.
Lemma brw_int : forall H z hv, brw H (VInt z) hv -> hv = HInt z.
Proof. intros H z hv [[fp O]|O]; inversion O; auto. Qed.
Lemma brw_bool : forall H b hv, brw H (VBool b) hv -> hv = HBool b.
Proof. intros H z hv [[fp O]|O]; inversion O; auto. Qed.
Lemma brw_bytes : forall H b hv, brw H (VBytes b) hv -> shr ro H (VBytes b) hv.
Proof. intros H z hv [[fp O]|O]; [inversion O|exact O]. Qed.
Lemma int_brw : forall H z, brw H (VInt z) (HInt z).
Proof. intros. left. exists []. constructor. Qed.

Lemma ints_map : forall b, ints (map HInt b) = Some b.
Proof. induction b as [|z b IH]; cbn; auto. now rewrite IH. Qed.
Lemma shr_bytes_inv : forall H b hv, shr ro H (VBytes b) hv -> exists base off cap, hv = HSlice base off (List.length b) cap /\
  (List.length b <= cap)%nat /\
  (b = [] \/ (ro base /\ win base off (off + List.length b)) /\ exists l, nth_error H base = Some (OArray l) /\ firstn (List.length b) (skipn off l) = map HInt b).
Proof. intros H b hv S. inversion S; subst. eauto 10. Qed.
Lemma elements_shr : forall H b base off len cap, shr ro H (VBytes b) (HSlice base off len cap) -> elements H base off len = Some (map HInt b).
Proof.
  intros H b base off len cap S. destruct (shr_bytes_inv _ _ _ S) as (b0 & o0 & c0 & E & L & D). inversion E; subst.
  unfold elements. destruct D as [D|(_ & l & X & F)].
  - subst. cbn [List.length map]. destruct (nth_error H b0) as [[]|]; reflexivity.
  - now rewrite X, F.
Qed.
Lemma bytesOf_shr : forall H b hv, shr ro H (VBytes b) hv -> bytesOf H hv = Some b.
Proof.
  intros H b hv S. destruct (shr_bytes_inv _ _ _ S) as (b0 & o0 & c0 & -> & _). cbn [bytesOf]. erewrite elements_shr by eauto. apply ints_map.
Qed.
Lemma nthZ_map : forall {A B} (f : A -> B) l z, nthZ (map f l) z = option_map f (nthZ l z).
Proof. intros. unfold nthZ. destruct (z <? 0); auto. apply nth_error_map. Qed.
Lemma nthZ_own : forall H vs hvs fp z v, owns H vs hvs fp -> nthZ vs z = Some v -> exists hv fp0, nthZ hvs z = Some hv /\ own H v hv fp0.
Proof.
  intros H vs hvs fp z v O E. unfold nthZ in *. destruct (z <? 0); [discriminate|].
  destruct (owns_split _ _ _ _ O _ _ E) as (hv & fp0 & rest & N & O1 & _). eauto.
Qed.
Lemma sint_8 : forall z, sint 8 z = s64 z.
Proof. intros z. unfold sint, s64. change (2 ^ (8 * 8)) with two64. change (two64 / 2) with two63. reflexivity. Qed.
Lemma skipn_skipn : forall {A} (l : list A) a b, skipn a (skipn b l) = skipn (b + a) l.
Proof. intros A l a b. revert l. induction b; intros l; cbn; auto. destruct l; auto. destruct a; reflexivity. Qed.
Lemma shr_from : forall H b base off len cap z, shr ro H (VBytes b) (HSlice base off len cap) -> 0 <= z <= blen b ->
  shr ro H (VBytes (skipn (Z.to_nat z) b)) (HSlice base (off + Z.to_nat z) (len - Z.to_nat z) (cap - Z.to_nat z)).
Proof.
  intros H b base off len cap z S R. destruct (shr_bytes_inv _ _ _ S) as (b0 & o0 & c0 & E & L & D). inversion E; subst.
  unfold blen in R. constructor.
  - now rewrite skipn_length.
  - lia.
  - destruct D as [->|((A & W) & l & X & F)]; [left; destruct (Z.to_nat z); reflexivity|right].
    split; [split; auto; eapply win_sub; eauto; lia|]. exists l. split; auto.
    rewrite <- skipn_skipn, <- skipn_map, <- F, skipn_firstn_comm. reflexivity.
Qed.
Lemma shr_to : forall H b base off len cap z, shr ro H (VBytes b) (HSlice base off len cap) -> 0 <= z <= blen b ->
  z <= Z.of_nat cap /\ shr ro H (VBytes (firstn (Z.to_nat z) b)) (HSlice base off (Z.to_nat z) cap).
Proof.
  intros H b base off len cap z S R. destruct (shr_bytes_inv _ _ _ S) as (b0 & o0 & c0 & E & L & D). inversion E; subst.
  unfold blen in R. split; [lia|]. constructor.
  - rewrite firstn_length. lia.
  - lia.
  - destruct D as [->|((A & W) & l & X & F)]; [left; destruct (Z.to_nat z); reflexivity|right].
    split; [split; auto; eapply win_sub; eauto; lia|]. exists l. split; auto.
    rewrite <- firstn_map, <- F, firstn_firstn. f_equal. lia.
Qed.
Lemma brw_field : forall H ty fs hv f w, brw H (VStruct ty fs) hv -> alookup f fs = Some w ->
  exists p hfs hw, hv = HPtr p /\ nth_error H p = Some (OStruct ty hfs) /\ alookup f hfs = Some hw /\ brw H w hw.
Proof.
  intros H ty fs hv f w [[fp O]|O] L.
  - destruct (own_struct_inv _ _ _ _ _ O) as (p & hfs & fp' & -> & _ & N & M & OS).
    rewrite lookup_index in L. destruct (index f (map fst fs)) as [k|] eqn:IX; [|discriminate L].
    destruct (owns_split _ _ _ _ OS _ _ L) as (hw & fp1 & rest & N1 & O1 & _). exists p, hfs, hw. repeat split; auto; [|left; eauto].
    now rewrite lookup_index, <- M, IX.
  - destruct (shr_struct_inv _ _ _ _ _ O) as (p & hfs & -> & _ & N & FF). exists p, hfs.
    cut (exists hw, alookup f hfs = Some hw /\ brw H w hw). { intros (hw & A & B). eauto. }
    clear N O. revert L. induction FF as [|[a b] [c d] fs hfs (A & z & B & C) F IH]; cbn [alookup fst snd] in *; [intros L; discriminate L|intros L].
    subst. destruct (String.eqb f c).
    + inversion L; subst. exists (HInt z). split; auto. apply int_brw.
    + destruct (IH L) as (hw & P1 & P2). eauto.
Qed.

Variable pl : platform.
Hypothesis wide : word pl = 8.
Variable types : amap (list (string * gtype)).

Lemma eval_sim : forall H G e he fp fz, envR H G e he fp fz -> forall x v, pureE G x = true -> eval types e x = Ok v ->
  exists hv, heval pl types H he x = Ok (hv, H) /\ brw H v hv.
Proof.
  intros H G e he fp fz ER. induction x; intros v PU EV; cbn [pureE] in PU; try discriminate; try (apply andb_true_iff in PU as [PU1 PU2]).
  - cbn [eval heval] in *. inversion EV. exists (HInt z). split; auto. apply int_brw.
  - cbn [eval heval] in *. destruct (alookup x e) as [w|] eqn:L; [|discriminate]. inversion EV; subst. apply orb_true_iff in PU as [M|M]; [apply owner_is in M as (k & M & MK)|apply shr_is in M].
    + destruct (lookup_own _ _ _ _ _ _ ER _ _ _ M MK L) as (hv & fp0 & rest & L1 & O & _). rewrite L1. exists hv. split; auto. left; eauto.
    + destruct (lookup_shr _ _ _ _ _ _ ER _ _ M L) as (hv & L1 & O). rewrite L1. exists hv. split; auto. right; auto.
  - cbn [eval heval] in *. destruct (eval types e x) as [w| | |]; try discriminate. cbn [bind] in EV. destruct w; try discriminate.
    destruct (alookup f fs) as [w|] eqn:L; [|discriminate]. inversion EV; subst. destruct (IHx _ PU eq_refl) as (hv & E1 & B).
    destruct (brw_field _ _ _ _ _ _ B L) as (p & hfs & hw & -> & N & L1 & B1). rewrite E1. cbn [bind]. rewrite N, L1. eauto.
  - cbn [eval heval] in *. destruct (eval types e x1) as [w| | |]; try discriminate. destruct (eval types e x2) as [k| | |]; try discriminate.
    cbn [bind] in EV. destruct (IHx1 _ PU1 eq_refl) as (h1 & E1 & B1). destruct (IHx2 _ PU2 eq_refl) as (h2 & E2 & B2).
    rewrite E1. cbn [bind]. rewrite E2. cbn [bind]. destruct w; try discriminate; destruct k; try discriminate; apply brw_int in B2; subst h2.
    + destruct (nthZ b z) as [w|] eqn:L; [|discriminate]. inversion EV; subst. apply brw_bytes in B1.
      destruct (shr_bytes_inv _ _ _ B1) as (b0 & o0 & c0 & -> & _). rewrite (elements_shr _ _ _ _ _ _ B1), nthZ_map, L. cbn [option_map].
      exists (HInt w). split; auto. apply int_brw.
    + destruct (nthZ l z) as [w|] eqn:L; [|discriminate]. inversion EV; subst. destruct B1 as [[fp1 O]|O]; [|inversion O].
      destruct (own_list_inv _ _ _ _ O) as [(hvs & -> & OS)|(base & off & len & cap & l0 & fp' & -> & -> & N0 & _ & _ & OS)].
      * destruct (nthZ_own _ _ _ _ _ _ OS L) as (hv & fp2 & N & O2). rewrite N. exists hv. split; auto. left; eauto.
      * destruct (nthZ_own _ _ _ _ _ _ OS L) as (hv & fp2 & N & O2). unfold elements. rewrite N0, N. exists hv. split; auto. left; eauto.
  - cbn [eval heval] in *. destruct (eval types e x) as [w| | |]; try discriminate. cbn [bind] in EV. destruct w; try discriminate. inversion EV; subst.
    destruct (IHx _ PU eq_refl) as (hv & E1 & B). apply brw_bytes in B. destruct (shr_bytes_inv _ _ _ B) as (b0 & o0 & c0 & -> & _).
    rewrite E1. cbn [bind]. exists (HInt (blen b)). split; auto. apply int_brw.
  - cbn [eval heval] in *. destruct (eval types e x) as [w| | |]; try discriminate. cbn [bind] in EV. destruct w; try discriminate. inversion EV; subst.
    destruct (IHx _ PU eq_refl) as (hv & E1 & B). apply brw_int in B. subst. rewrite E1. cbn [bind]. rewrite wide. eexists. split; eauto. rewrite <- sint_8. apply int_brw.
  - assert (Arith : forall w1 w2, eval types e x1 = Ok w1 -> eval types e x2 = Ok w2 -> exists h1 h2, heval pl types H he x1 = Ok (h1, H) /\
      heval pl types H he x2 = Ok (h2, H) /\ brw H w1 h1 /\ brw H w2 h2).
    { intros w1 w2 E1 E2. destruct (IHx1 _ PU1 E1) as (h1 & F1 & B1). destruct (IHx2 _ PU2 E2) as (h2 & F2 & B2). eauto 10. }
    assert (Cmp : forall o, match o with BAnd | BOr => False | _ => True end -> eval types e (EBin o x1 x2) = Ok v ->
      exists hv, heval pl types H he (EBin o x1 x2) = Ok (hv, H) /\ brw H v hv).
    { clear EV. intros o0 NO EV. destruct o0; try contradiction; cbn [eval heval] in *; (destruct (eval types e x1) as [w1| | |]; try discriminate); cbn [bind] in EV;
         (destruct (eval types e x2) as [w2| | |]; try discriminate); cbn [bind] in EV;
         destruct (Arith _ _ eq_refl eq_refl) as (h1 & h2 & F1 & F2 & B1 & B2);
         destruct w1; try discriminate; destruct w2; try discriminate; apply brw_int in B1, B2; subst; rewrite F1; cbn [bind]; rewrite F2; cbn [bind];
         apply f_equal with (f := fun o => match o with Ok x => x | _ => VNil end) in EV; subst v; eexists; (split; [reflexivity|]); cbn [evalBin hevalBin].
      1-4: right; constructor.
      all: rewrite wide, <- sint_8; apply int_brw. }
    destruct o; try (apply Cmp; [exact I|exact EV]); clear Cmp; cbn [eval heval] in *.
    + destruct (eval types e x1) as [w1| | |]; try discriminate. cbn [bind] in EV. destruct w1; try discriminate.
      destruct (IHx1 _ PU1 eq_refl) as (h1 & F1 & B1). apply brw_bool in B1. subst. rewrite F1. cbn [bind]. destruct b.
      * destruct (eval types e x2) as [w2| | |]; try discriminate. cbn [bind] in EV. destruct w2; try discriminate. inversion EV; subst.
        destruct (IHx2 _ PU2 eq_refl) as (h2 & F2 & B2). apply brw_bool in B2. subst. rewrite F2. cbn [bind]. eexists. split; eauto. right; constructor.
      * inversion EV; subst. eexists. split; eauto. right; constructor.
    + destruct (eval types e x1) as [w1| | |]; try discriminate. cbn [bind] in EV. destruct w1; try discriminate.
      destruct (IHx1 _ PU1 eq_refl) as (h1 & F1 & B1). apply brw_bool in B1. subst. rewrite F1. cbn [bind]. destruct b.
      * inversion EV; subst. eexists. split; eauto. right; constructor.
      * destruct (eval types e x2) as [w2| | |]; try discriminate. cbn [bind] in EV. destruct w2; try discriminate. inversion EV; subst.
        destruct (IHx2 _ PU2 eq_refl) as (h2 & F2 & B2). apply brw_bool in B2. subst. rewrite F2. cbn [bind]. eexists. split; eauto. right; constructor.
  - cbn [eval heval] in *. destruct (eval types e x) as [w| | |]; try discriminate. cbn [bind] in EV. destruct w; try discriminate. inversion EV; subst.
    destruct (IHx _ PU eq_refl) as (hv & E1 & B). apply brw_bool in B. subst. rewrite E1. cbn [bind]. eexists. split; eauto. right; constructor.
  - cbn [eval heval] in *. auto.
  - destruct x; try discriminate. cbn [eval heval] in *. destruct (alookup x e) as [w|] eqn:L; [|discriminate].
    apply shr_is in PU. destruct (lookup_shr _ _ _ _ _ _ ER _ _ PU L) as (hv & L1 & O). rewrite L1. cbn [bind] in *.
    destruct w; try discriminate; inversion EV; subst; inversion O; subst; eexists; split; eauto; right; constructor.
  - cbn [eval heval] in *. destruct (eval types e x1) as [w1| | |]; try discriminate. destruct (eval types e x2) as [w2| | |]; try discriminate.
    cbn [bind] in EV. destruct (IHx1 _ PU1 eq_refl) as (h1 & E1 & B1). destruct (IHx2 _ PU2 eq_refl) as (h2 & E2 & B2).
    rewrite E1. cbn [bind]. rewrite E2. cbn [bind]. destruct w1; try discriminate; destruct w2; try discriminate; apply brw_int in B2; subst h2.
    apply brw_bytes in B1. destruct (shr_bytes_inv _ _ _ B1) as (b0 & o0 & c0 & -> & _). change (Z.of_nat (List.length b)) with (blen b).
    destruct ((z <? 0) || (blen b <? z)) eqn:C; [discriminate|]. inversion EV; subst. eexists. split; eauto. right. apply shr_from; auto. lia.
  - cbn [eval heval] in *. destruct (eval types e x1) as [w1| | |]; try discriminate. destruct (eval types e x2) as [w2| | |]; try discriminate.
    cbn [bind] in EV. destruct (IHx1 _ PU1 eq_refl) as (h1 & E1 & B1). destruct (IHx2 _ PU2 eq_refl) as (h2 & E2 & B2).
    rewrite E1. cbn [bind]. rewrite E2. cbn [bind]. destruct w1; try discriminate; destruct w2; try discriminate; apply brw_int in B2; subst h2.
    apply brw_bytes in B1. destruct (shr_bytes_inv _ _ _ B1) as (b0 & o0 & c0 & -> & _).
    destruct ((z <? 0) || (blen b <? z)) eqn:C; [discriminate|]. inversion EV; subst.
    destruct (shr_to _ _ _ _ _ _ z B1) as [C2 S]; [lia|]. replace ((z <? 0) || (Z.of_nat c0 <? z)) with false by lia.
    eexists. split; eauto. right. exact S.
  - cbn [eval heval] in *. destruct (eval types e x) as [w| | |]; try discriminate. cbn [bind] in EV. destruct w; try discriminate.
    destruct (IHx _ PU eq_refl) as (hv & E1 & B). apply brw_bytes in B. rewrite E1. cbn [bind]. rewrite (bytesOf_shr _ _ _ B).
    destruct ((bits =? 16) || (bits =? 32) || (bits =? 64)); [|discriminate]. destruct (blen b <? bits / 8); [discriminate|].
    inversion EV; subst. eexists. split; eauto. apply int_brw.
  - cbn [eval heval] in *. destruct (eval types e x) as [w| | |]; try discriminate. cbn [bind] in EV. destruct w; try discriminate. inversion EV; subst.
    destruct (IHx _ PU eq_refl) as (hv & E1 & B). apply brw_bytes in B. rewrite E1. cbn [bind]. rewrite (bytesOf_shr _ _ _ B).
    eexists. split; eauto. apply int_brw.
  - cbn [eval heval] in *. destruct (eval types e x) as [w| | |]; try discriminate. cbn [bind] in EV. destruct w; try discriminate. inversion EV; subst.
    destruct (IHx _ PU eq_refl) as (hv & E1 & B). apply brw_bytes in B. rewrite E1. cbn [bind]. rewrite (bytesOf_shr _ _ _ B).
    eexists. split; eauto. left. exists []. constructor.
  - cbn [eval heval] in *. inversion EV; subst. eexists. split; eauto. right; constructor.
  - cbn [eval heval] in *. inversion EV; subst. eexists. split; eauto. right; constructor.
Qed.
End Env.
End Old.
