From Coq Require Import ZArith String List Bool Lia Permutation.
From Coq Require Import ZifyBool.
From Verif Require Import Base Ast IntervalsModel IntervalsSpec IntervalsProofs InspectModel InspectSpec.
Import ListNotations.
Open Scope string_scope.
Open Scope list_scope.
Open Scope Z_scope.

(* ---------- association lists ---------- *)

Lemma alookup_ainsert : forall {A} k n (v : A) m,
  alookup n (ainsert k v m) = if String.eqb n k then Some v else alookup n m.
Proof.
  induction m as [|[k' v'] m IH]; cbn [ainsert alookup].
  - reflexivity.
  - destruct (String.eqb_spec k k') as [->|N]; cbn [alookup].
    + destruct (String.eqb_spec n k'); auto.
    + rewrite IH. destruct (String.eqb_spec n k'), (String.eqb_spec n k); subst; auto; congruence.
Qed.

Lemma alookup_none_keys : forall {A} k (m : amap A), alookup k m = None <-> ~ In k (akeys m).
Proof.
  induction m as [|[k' v'] m IH]; cbn [alookup akeys map fst In]; [tauto|].
  destruct (String.eqb_spec k k') as [->|N].
  - split; [discriminate|intros H; exfalso; auto].
  - rewrite IH. unfold akeys. intuition congruence.
Qed.

Lemma ainsert_fresh : forall {A} k (v : A) m, alookup k m = None -> ainsert k v m = m ++ [(k, v)].
Proof.
  induction m as [|[k' v'] m IH]; cbn [ainsert alookup app]; auto.
  destruct (String.eqb_spec k k'); [discriminate|]. intros; now rewrite IH.
Qed.

Lemma alookup_app : forall {A} k (m1 m2 : amap A),
  alookup k (m1 ++ m2) = match alookup k m1 with Some v => Some v | None => alookup k m2 end.
Proof.
  induction m1 as [|[k' v'] m1 IH]; intros; cbn [app alookup]; auto.
  destruct (String.eqb k k'); auto.
Qed.

(* ---------- the per-file maps ---------- *)

Section BuildMap.
Context {A V : Type} (key : A -> string) (val : A -> V) (msg : string).
Fixpoint buildMap (m : amap V) (l : list A) : outcome (amap V) :=
  match l with
  | [] => Ok m
  | s :: l' =>
      match alookup (key s) m with
      | Some _ => Err msg
      | None => buildMap (ainsert (key s) (val s) m) l'
      end
  end.
Lemma buildMap_spec : forall l m,
  (NoDup (map key l) /\ (forall a, In a l -> ~ In (key a) (akeys m)) /\
     buildMap m l = Ok (m ++ map (fun a => (key a, val a)) l)) \/
  (~ (NoDup (map key l) /\ (forall a, In a l -> ~ In (key a) (akeys m))) /\ buildMap m l = Err msg).
Proof.
  induction l as [|a l IH]; intros m; cbn [buildMap map].
  - left. rewrite app_nil_r. repeat split; auto using NoDup_nil. 
  - destruct (alookup (key a) m) eqn:E.
    + right. split; auto. intros (_ & H). specialize (H a (or_introl eq_refl)).
      apply alookup_none_keys in H. congruence.
    + rewrite ainsert_fresh by auto. destruct (IH (m ++ [(key a, val a)])) as [(N & D & R)|(N & R)].
      * left. rewrite R, <- app_assoc. cbn [app]. split; [|split]; auto.
        -- constructor; auto. intros I. apply in_map_iff in I. destruct I as (b & Eb & Ib).
           apply (D b Ib). unfold akeys. rewrite map_app. apply in_or_app. right. left. cbn. auto.
        -- intros b [<-|Ib].
           ++ now apply alookup_none_keys.
           ++ intros I. apply (D b Ib). unfold akeys in *. rewrite map_app. apply in_or_app; auto.
      * right. split; auto. intros (D & H). apply N. inversion D; subst. split; auto.
        intros b Ib I. unfold akeys in I. rewrite map_app in I. apply in_app_or in I.
        destruct I as [I|[I|[]]].
        -- apply (H b); auto. now right.
        -- cbn in I. apply H2. rewrite I. now apply in_map.
Qed.
End BuildMap.

Lemma structsMap_eq : forall l m, structsMap m l = buildMap sname (fun s => s) "duplicate struct name" m l.
Proof. reflexivity. Qed.
Lemma contextsMap_eq : forall l m, contextsMap m l = buildMap cname (fun s => s) "duplicate context name" m l.
Proof. reflexivity. Qed.
Lemma constantsMap_eq : forall l m, constantsMap m l = buildMap kname kvalue "duplicate constant name" m l.
Proof. reflexivity. Qed.

Lemma Structs_spec : forall f,
  (NoDup (map sname (fstructs f)) /\ exists sm, Structs f = Ok sm /\ map snd sm = fstructs f) \/
  (~ NoDup (map sname (fstructs f)) /\ Structs f = Err "duplicate struct name").
Proof.
  intros f. unfold Structs. rewrite structsMap_eq.
  destruct (buildMap_spec sname (fun s => s) "duplicate struct name" (fstructs f) []) as [(N & _ & R)|(N & R)].
  - left. split; auto. rewrite R. eexists; split; [reflexivity|]. cbn [app]. rewrite map_map. apply map_id.
  - right. split; [intros D; apply N; split; auto|exact R].
Qed.
Lemma Contexts_spec : forall f,
  (NoDup (map cname (fcontexts f)) /\ exists sm, Contexts f = Ok sm /\ map snd sm = fcontexts f) \/
  (~ NoDup (map cname (fcontexts f)) /\ Contexts f = Err "duplicate context name").
Proof.
  intros f. unfold Contexts. rewrite contextsMap_eq.
  destruct (buildMap_spec cname (fun s => s) "duplicate context name" (fcontexts f) []) as [(N & _ & R)|(N & R)].
  - left. split; auto. rewrite R. eexists; split; [reflexivity|]. cbn [app]. rewrite map_map. apply map_id.
  - right. split; [intros D; apply N; split; auto|exact R].
Qed.
Definition kpair (c : constant) : string * Z := (kname c, kvalue c).
Lemma Constants_spec : forall f,
  (NoDup (map kname (fconstants f)) /\ Constants f = Ok (map kpair (fconstants f))) \/
  (~ NoDup (map kname (fconstants f)) /\ Constants f = Err "duplicate constant name").
Proof.
  intros f. unfold Constants. rewrite constantsMap_eq.
  destruct (buildMap_spec kname kvalue "duplicate constant name" (fconstants f) []) as [(N & _ & R)|(N & R)].
  - left. split; auto.
  - right. split; [intros D; apply N; split; auto|exact R].
Qed.

(* ---------- loops of additions ---------- *)

Section AddAll.
Context {A V : Type} (add : resolver -> A -> mres) (key : A -> string) (val : A -> V)
        (look : resolver -> string -> option V) (okv : option V -> A -> bool)
        (set : resolver -> A -> resolver) (msg : string).
Hypothesis Hadd : forall r a, add r a =
  if okv (look r (key a)) a then (set r a, Ok tt) else (r, Err msg).
Hypothesis Hlook : forall r a n, look (set r a) n =
  if String.eqb n (key a) then Some (val a) else look r n.

Lemma forallb_ext_in : forall (B : Type) (f g : B -> bool) l,
  (forall b, In b l -> f b = g b) -> forallb f l = forallb g l.
Proof.
  induction l as [|b l IH]; cbn; intros H; auto. rewrite H, IH; auto.
Qed.

Lemma addAll_outcome : forall l r, NoDup (map key l) ->
  snd (addAll add r l) =
  if forallb (fun a => okv (look r (key a)) a) l then Ok tt else Err msg.
Proof.
  induction l as [|a l IH]; intros r ND; cbn [addAll forallb]; auto.
  inversion ND; subst. rewrite Hadd.
  destruct (okv (look r (key a)) a) eqn:E; cbn [andb]; auto.
  rewrite IH by auto.
  replace (forallb (fun a0 => okv (look (set r a) (key a0)) a0) l)
     with (forallb (fun a0 => okv (look r (key a0)) a0) l); auto.
  apply forallb_ext_in. intros b Ib. rewrite Hlook.
  destruct (String.eqb_spec (key b) (key a)) as [Eq|]; auto.
  exfalso. apply H1. rewrite <- Eq. now apply in_map.
Qed.

Lemma addAll_look : forall l r n, NoDup (map key l) -> snd (addAll add r l) = Ok tt ->
  look (fst (addAll add r l)) n =
  match find (fun a => String.eqb n (key a)) l with Some a => Some (val a) | None => look r n end.
Proof.
  induction l as [|a l IH]; intros r n ND H; cbn [addAll find] in *; auto.
  inversion ND; subst. rewrite Hadd in *.
  destruct (okv (look r (key a)) a) eqn:E; [|discriminate].
  rewrite IH by auto. rewrite Hlook.
  destruct (String.eqb_spec n (key a)) as [->|Hn].
  - destruct (find _ l) eqn:F; auto. apply find_some in F. destruct F as [F1 F2].
    apply String.eqb_eq in F2. exfalso. apply H2. rewrite F2. now apply in_map.
  - destruct (find _ l); auto.
Qed.

Lemma addAll_frame : forall (X : Type) (g : resolver -> X), (forall r a, g (set r a) = g r) ->
  forall l r, g (fst (addAll add r l)) = g r.
Proof.
  intros X g Hg. induction l as [|a l IH]; intros r; cbn [addAll]; auto.
  rewrite Hadd. destruct (okv (look r (key a)) a); cbn [fst]; auto.
  rewrite IH. apply Hg.
Qed.

(** An invariant preserved by one accepted addition is preserved by the loop. *)
Lemma addAll_inv : forall (P : resolver -> Prop),
  (forall r a, P r -> okv (look r (key a)) a = true -> P (set r a)) ->
  forall l r, P r -> P (fst (addAll add r l)).
Proof.
  intros P HP. induction l as [|a l IH]; intros r Hr; cbn [addAll]; auto.
  rewrite Hadd. destruct (okv (look r (key a)) a) eqn:E; cbn [fst]; auto.
Qed.
End AddAll.

Lemma find_perm : forall {A} (key : A -> string) n l l', Permutation l l' -> NoDup (map key l) ->
  find (fun a => String.eqb n (key a)) l = find (fun a => String.eqb n (key a)) l'.
Proof.
  intros A key n l l' P. induction P; cbn [find map]; intros ND; auto.
  - inversion ND; subst. rewrite IHP; auto.
  - inversion ND as [|? ? H1 H2]; subst. 
    destruct (String.eqb_spec n (key y)); destruct (String.eqb_spec n (key x)); auto.
    exfalso. apply H1. cbn. left. congruence.
  - rewrite IHP1, IHP2; auto. eapply Permutation_NoDup; [|exact ND]. now apply Permutation_map.
Qed.
Lemma forallb_perm : forall {A} (f : A -> bool) l l', Permutation l l' -> forallb f l = forallb f l'.
Proof.
  induction 1; cbn; auto; try congruence. destruct (f x), (f y); auto.
Qed.

Definition okStruct (o : option struct) (s : struct) : bool :=
  match o with Some e => Extern e | None => true end.
Definition setStruct (r : resolver) (s : struct) :=
  mkRes (ainsert (sname s) s (structs r)) (contexts r) (constants r).
Lemma AddStruct_eq : forall r s, AddStruct r s =
  if okStruct (Struct r (sname s)) s then (setStruct r s, Ok tt)
  else (r, Err "cannot override non-extern struct").
Proof.
  intros. unfold AddStruct, okStruct. destruct (Struct r (sname s)) as [e|]; auto.
  destruct (Extern e); auto.
Qed.
Lemma setStruct_look : forall r s n, Struct (setStruct r s) n =
  if String.eqb n (sname s) then Some s else Struct r n.
Proof. intros. unfold Struct, setStruct. cbn. apply alookup_ainsert. Qed.

Definition okContext (o : option context) (s : context) : bool :=
  match o with Some e => false | None => true end.
Definition setContext (r : resolver) (s : context) :=
  mkRes (structs r) (ainsert (cname s) s (contexts r)) (constants r).
Lemma AddContext_eq : forall r s, AddContext r s =
  if okContext (Context r (cname s)) s then (setContext r s, Ok tt)
  else (r, Err "cannot override context").
Proof.
  intros. unfold AddContext, okContext. destruct (Context r (cname s)) as [e|]; auto.
Qed.
Lemma setContext_look : forall r s n, Context (setContext r s) n =
  if String.eqb n (cname s) then Some s else Context r n.
Proof. intros. unfold Context, setContext. cbn. apply alookup_ainsert. Qed.

Definition okConst (o : option Z) (kv : string * Z) : bool :=
  match o with Some e => e =? snd kv | None => true end.
Definition setConst (r : resolver) (kv : string * Z) :=
  mkRes (structs r) (contexts r) (ainsert (fst kv) (snd kv) (constants r)).
Lemma SetConstant_eq : forall r kv, SetConstant r (fst kv) (snd kv) =
  if okConst (Constant r (fst kv)) kv then (setConst r kv, Ok tt)
  else (r, Err "cannot override constant").
Proof.
  intros. unfold SetConstant, okConst. destruct (Constant r (fst kv)) as [e|]; auto.
  destruct (e =? snd kv); auto.
Qed.
Lemma setConst_look : forall r kv n, Constant (setConst r kv) n =
  if String.eqb n (fst kv) then Some (snd kv) else Constant r n.
Proof. intros. unfold Constant, setConst. cbn. apply alookup_ainsert. Qed.

(** Outcome and answers of [AddFile], with no reference to iteration order. *)
Definition struct_phase (r : resolver) (f : file) : bool :=
  forallb (fun a => okStruct (Struct r (sname a)) a) (fstructs f).
Definition context_phase (r : resolver) (f : file) : bool :=
  forallb (fun a => okContext (Context r (cname a)) a) (fcontexts f).
Definition const_phase (r : resolver) (f : file) : bool :=
  forallb (fun a => okConst (Constant r (fst a)) a) (map kpair (fconstants f)).

Definition answers_after (r r' : resolver) (f : file) : Prop :=
  (forall n, Struct r' n = match find (fun s => String.eqb n (sname s)) (fstructs f) with
                           | Some s => Some s | None => Struct r n end) /\
  (forall n, Context r' n = match find (fun s => String.eqb n (cname s)) (fcontexts f) with
                           | Some s => Some s | None => Context r n end) /\
  (forall n, Constant r' n = match find (fun s => String.eqb n (kname s)) (fconstants f) with
                           | Some s => Some (kvalue s) | None => Constant r n end).

Lemma find_kpair : forall n l,
  find (fun a => String.eqb n (fst a)) (map kpair l) =
  match find (fun s => String.eqb n (kname s)) l with Some c => Some (kpair c) | None => None end.
Proof. induction l as [|c l IH]; cbn; auto. destruct (String.eqb n (kname c)); auto. Qed.

Lemma nodup_dec : forall l : list string, {NoDup l} + {~ NoDup l}.
Proof. intros. apply ListDec.NoDup_dec, string_dec. Qed.

Definition addfile_outcome (r : resolver) (f : file) : outcome unit :=
  if nodup_dec (map sname (fstructs f)) then
    if struct_phase r f then
      if nodup_dec (map cname (fcontexts f)) then
        if context_phase r f then
          if nodup_dec (map kname (fconstants f)) then
            if const_phase r f then Ok tt else Err "cannot override constant"
          else Err "duplicate constant name"
        else Err "cannot override context"
      else Err "duplicate context name"
    else Err "cannot override non-extern struct"
  else Err "duplicate struct name".

Lemma AddFile_spec : forall o r f, valid_orders o ->
  snd (AddFile o r f) = addfile_outcome r f /\
  (addfile_outcome r f = Ok tt -> answers_after r (fst (AddFile o r f)) f).
Proof.
  intros o r f (O1 & O2 & O3). unfold AddFile, addfile_outcome.
  destruct (Structs_spec f) as [(N1 & sm & -> & E1)|(N1 & ->)].
  2: { destruct (nodup_dec (map sname (fstructs f))); [contradiction|]. cbn. split; auto. discriminate. }
  destruct (nodup_dec (map sname (fstructs f))) as [_|]; [|contradiction].
  rewrite E1. specialize (O1 (fstructs f)).
  assert (N1' : NoDup (map sname (ord_structs o (fstructs f)))).
  { eapply Permutation_NoDup; [|exact N1]. apply Permutation_map. now symmetry. }
  pose proof (addAll_outcome _ _ _ _ _ _ _ AddStruct_eq setStruct_look _ r N1') as OC1.
  rewrite (forallb_perm _ _ _ O1) in OC1. fold (struct_phase r f) in OC1.
  pose proof (fun n => addAll_look _ _ _ _ _ _ _ AddStruct_eq setStruct_look _ r n N1') as L1.
  pose proof (addAll_frame _ _ _ _ _ _ AddStruct_eq _ contexts (fun _ _ => eq_refl) (ord_structs o (fstructs f)) r) as F1.
  pose proof (addAll_frame _ _ _ _ _ _ AddStruct_eq _ constants (fun _ _ => eq_refl) (ord_structs o (fstructs f)) r) as F2.
  destruct (addAll AddStruct r (ord_structs o (fstructs f))) as [r1 e1].
  cbn [fst snd] in *. rewrite OC1 in *.
  destruct (struct_phase r f); [|cbn; split; auto; discriminate].
  destruct (Contexts_spec f) as [(N2 & cm & -> & E2)|(N2 & ->)].
  2: { destruct (nodup_dec (map cname (fcontexts f))); [contradiction|]. cbn. split; auto. discriminate. }
  destruct (nodup_dec (map cname (fcontexts f))) as [_|]; [|contradiction].
  rewrite E2. specialize (O2 (fcontexts f)).
  assert (N2' : NoDup (map cname (ord_contexts o (fcontexts f)))).
  { eapply Permutation_NoDup; [|exact N2]. apply Permutation_map. now symmetry. }
  pose proof (addAll_outcome _ _ _ _ _ _ _ AddContext_eq setContext_look _ r1 N2') as OC2.
  rewrite (forallb_perm _ _ _ O2) in OC2.
  replace (forallb (fun a => okContext (Context r1 (cname a)) a) (fcontexts f)) with (context_phase r f) in OC2
    by (unfold context_phase, Context; now rewrite F1).
  pose proof (fun n => addAll_look _ _ _ _ _ _ _ AddContext_eq setContext_look _ r1 n N2') as L2.
  pose proof (addAll_frame _ _ _ _ _ _ AddContext_eq _ structs (fun _ _ => eq_refl) (ord_contexts o (fcontexts f)) r1) as G1.
  pose proof (addAll_frame _ _ _ _ _ _ AddContext_eq _ constants (fun _ _ => eq_refl) (ord_contexts o (fcontexts f)) r1) as G2.
  destruct (addAll AddContext r1 (ord_contexts o (fcontexts f))) as [r2 e2].
  cbn [fst snd] in *. rewrite OC2 in *.
  destruct (context_phase r f); [|cbn; split; auto; discriminate].
  destruct (Constants_spec f) as [(N3 & ->)|(N3 & ->)].
  2: { destruct (nodup_dec (map kname (fconstants f))); [contradiction|]. cbn. split; auto. discriminate. }
  destruct (nodup_dec (map kname (fconstants f))) as [_|]; [|contradiction].
  specialize (O3 (map kpair (fconstants f))).
  assert (N3'' : NoDup (map fst (map kpair (fconstants f)))) by (rewrite map_map; exact N3).
  assert (N3' : NoDup (map fst (ord_constants o (map kpair (fconstants f))))).
  { eapply Permutation_NoDup; [|exact N3'']. apply Permutation_map. now symmetry. }
  pose proof (addAll_outcome _ _ _ _ _ _ _ SetConstant_eq setConst_look _ r2 N3') as OC3.
  rewrite (forallb_perm _ _ _ O3) in OC3.
  replace (forallb (fun a => okConst (Constant r2 (fst a)) a) (map kpair (fconstants f))) with (const_phase r f) in OC3
    by (unfold const_phase, Constant; now rewrite G2, F2).
  pose proof (fun n => addAll_look _ _ _ _ _ _ _ SetConstant_eq setConst_look _ r2 n N3') as L3.
  pose proof (addAll_frame _ _ _ _ _ _ SetConstant_eq _ structs (fun _ _ => eq_refl) (ord_constants o (map kpair (fconstants f))) r2) as H1.
  pose proof (addAll_frame _ _ _ _ _ _ SetConstant_eq _ contexts (fun _ _ => eq_refl) (ord_constants o (map kpair (fconstants f))) r2) as H2.
  destruct (addAll (fun r kv => SetConstant r (fst kv) (snd kv)) r2 (ord_constants o (map kpair (fconstants f)))) as [r3 e3].
  cbn [fst snd] in *. split; auto.
  rewrite OC3 in L3. destruct (const_phase r f); [|discriminate]. intros _.
  split; [|split].
  - intros n. unfold Struct in *. rewrite H1, G1, L1 by auto.
    rewrite (find_perm sname n _ _ O1) by auto. reflexivity.
  - intros n. unfold Context in *. rewrite H2, L2 by auto. rewrite F1.
    rewrite (find_perm cname n _ _ O2) by auto. reflexivity.
  - intros n. unfold Constant in *. rewrite L3 by auto. rewrite G2, F2.
    rewrite (find_perm fst n _ _ O3) by auto.
    rewrite find_kpair. destruct (find _ (fconstants f)); reflexivity.
Qed.

(* ---------- C06 ---------- *)

Theorem addfile_order_independent : forall o o' r f, valid_orders o -> valid_orders o' ->
  snd (AddFile o r f) = snd (AddFile o' r f) /\
  (snd (AddFile o r f) = Ok tt -> same_answers (fst (AddFile o r f)) (fst (AddFile o' r f))).
Proof.
  intros o o' r f V V'. destruct (AddFile_spec o r f V) as [E A]. destruct (AddFile_spec o' r f V') as [E' A'].
  split; [congruence|]. rewrite E. intros H. destruct (A H) as (A1 & A2 & A3). destruct (A' H) as (B1 & B2 & B3).
  repeat split; intros n; rewrite ?A1, ?A2, ?A3, ?B1, ?B2, ?B3; reflexivity.
Qed.

(* ---------- C07 ---------- *)

Definition kept_struct (n : string) (s : struct) (r : resolver) : Prop := Struct r n = Some s /\ Extern s = false.

Lemma do_call_keeps : forall c r,
  (forall n s, kept_struct n s r -> kept_struct n s (fst (do_call r c))) /\
  (forall n x, Context r n = Some x -> Context (fst (do_call r c)) n = Some x) /\
  (forall n x, Constant r n = Some x -> Constant (fst (do_call r c)) n = Some x).
Proof.
  assert (S1 : forall a r n s, kept_struct n s r -> okStruct (Struct r (sname a)) a = true ->
                 kept_struct n s (setStruct r a)).
  { intros a r n s [H1 H2] H3. split; auto. rewrite setStruct_look.
    destruct (String.eqb_spec n (sname a)) as [->|]; auto.
    rewrite H1 in H3. cbn in H3. congruence. }
  assert (S2 : forall a r n x, Context r n = Some x -> okContext (Context r (cname a)) a = true ->
                 Context (setContext r a) n = Some x).
  { intros a r n x H1 H3. rewrite setContext_look.
    destruct (String.eqb_spec n (cname a)) as [->|]; auto.
    rewrite H1 in H3. cbn in H3. congruence. }
  assert (S3 : forall a r n x, Constant r n = Some x -> okConst (Constant r (fst a)) a = true ->
                 Constant (setConst r a) n = Some x).
  { intros a r n x H1 H3. rewrite setConst_look.
    destruct (String.eqb_spec n (fst a)) as [->|]; auto.
    rewrite H1 in H3. cbn in H3. f_equal. lia. }
  assert (KSet : forall r n0 v,
    (forall n s, kept_struct n s r -> kept_struct n s (fst (SetConstant r n0 v))) /\
    (forall n x, Context r n = Some x -> Context (fst (SetConstant r n0 v)) n = Some x) /\
    (forall n x, Constant r n = Some x -> Constant (fst (SetConstant r n0 v)) n = Some x)).
  { intros r n0 v. pose proof (SetConstant_eq r (n0, v)) as E. cbn [fst snd] in E. rewrite E.
    destruct (okConst _ _) eqn:O; cbn [fst]; auto.
  }
  intros c r. destruct c as [s|cx|k|n0 v|o f]; cbn [do_call].
  - rewrite AddStruct_eq. destruct (okStruct _ _) eqn:O; cbn [fst]; auto.
  - rewrite AddContext_eq. destruct (okContext _ _) eqn:O; cbn [fst]; auto.
  - apply KSet.
  - apply KSet.
  - unfold AddFile.
    assert (P1 : forall r l,
      (forall n s, kept_struct n s r -> kept_struct n s (fst (addAll AddStruct r l))) /\
      (forall n x, Context r n = Some x -> Context (fst (addAll AddStruct r l)) n = Some x) /\
      (forall n x, Constant r n = Some x -> Constant (fst (addAll AddStruct r l)) n = Some x)).
    { intros r0 l. split; [|split].
      - intros n s HP. apply (addAll_inv _ _ _ _ _ _ AddStruct_eq (kept_struct n s)); [|exact HP]. intros; eauto.
      - intros n x HP. apply (addAll_inv _ _ _ _ _ _ AddStruct_eq (fun r => Context r n = Some x)); [|exact HP]. intros; eauto.
      - intros n x HP. apply (addAll_inv _ _ _ _ _ _ AddStruct_eq (fun r => Constant r n = Some x)); [|exact HP]. intros; eauto. }
    assert (P2 : forall r l,
      (forall n s, kept_struct n s r -> kept_struct n s (fst (addAll AddContext r l))) /\
      (forall n x, Context r n = Some x -> Context (fst (addAll AddContext r l)) n = Some x) /\
      (forall n x, Constant r n = Some x -> Constant (fst (addAll AddContext r l)) n = Some x)).
    { intros r0 l. split; [|split].
      - intros n s HP. apply (addAll_inv _ _ _ _ _ _ AddContext_eq (kept_struct n s)); [|exact HP]. intros; eauto.
      - intros n x HP. apply (addAll_inv _ _ _ _ _ _ AddContext_eq (fun r => Context r n = Some x)); [|exact HP]. intros; eauto.
      - intros n x HP. apply (addAll_inv _ _ _ _ _ _ AddContext_eq (fun r => Constant r n = Some x)); [|exact HP]. intros; eauto. }
    assert (P3 : forall r l, let r' := fst (addAll (fun r kv => SetConstant r (fst kv) (snd kv)) r l) in
      (forall n s, kept_struct n s r -> kept_struct n s r') /\
      (forall n x, Context r n = Some x -> Context r' n = Some x) /\
      (forall n x, Constant r n = Some x -> Constant r' n = Some x)).
    { intros r0 l. cbv zeta. split; [|split].
      - intros n s HP. apply (addAll_inv _ _ _ _ _ _ SetConstant_eq (kept_struct n s)); [|exact HP]. intros; eauto.
      - intros n x HP. apply (addAll_inv _ _ _ _ _ _ SetConstant_eq (fun r => Context r n = Some x)); [|exact HP]. intros; eauto.
      - intros n x HP. apply (addAll_inv _ _ _ _ _ _ SetConstant_eq (fun r => Constant r n = Some x)); [|exact HP]. intros; eauto. }
    destruct (Structs f) as [sm| | |]; cbn [fst]; auto.
    destruct (P1 r (ord_structs o (map snd sm))) as (A1 & A2 & A3).
    destruct (addAll AddStruct r (ord_structs o (map snd sm))) as [r1 e1]. cbn [fst] in *.
    destruct e1 as [[]| | |]; cbn [fst]; auto.
    destruct (Contexts f) as [cm| | |]; cbn [fst]; auto.
    destruct (P2 r1 (ord_contexts o (map snd cm))) as (B1 & B2 & B3).
    destruct (addAll AddContext r1 (ord_contexts o (map snd cm))) as [r2 e2]. cbn [fst] in *.
    destruct e2 as [[]| | |]; cbn [fst]; auto.
    destruct (Constants f) as [km| | |]; cbn [fst]; auto.
    destruct (P3 r2 (ord_constants o km)) as (C1 & C2 & C3).
    split; [|split]; auto.
Qed.

Theorem history_keeps : forall cs r,
  (forall n s, Struct r n = Some s -> Extern s = false -> Struct (history r cs) n = Some s) /\
  (forall n x, Context r n = Some x -> Context (history r cs) n = Some x) /\
  (forall n x, Constant r n = Some x -> Constant (history r cs) n = Some x).
Proof.
  induction cs as [|c cs IH]; intros r; cbn [history]; auto.
  destruct (do_call_keeps c r) as (A & B & C). destruct (IH (fst (do_call r c))) as (A' & B' & C').
  split; [|split]; auto. intros n s H1 H2. destruct (A n s (conj H1 H2)). auto.
Qed.

(* ---------- C08 ---------- *)

Definition compat_r (r : resolver) (f : file) : Prop :=
  (forall s e, In s (fstructs f) -> Struct r (sname s) = Some e -> Extern e = true) /\
  (forall c, In c (fcontexts f) -> Context r (cname c) = None) /\
  (forall c v, In c (fconstants f) -> Constant r (kname c) = Some v -> v = kvalue c).

Lemma addfile_outcome_ok : forall r f, addfile_outcome r f = Ok tt <-> self_ok f /\ compat_r r f.
Proof.
  intros r f. unfold addfile_outcome, self_ok, compat_r.
  assert (P1 : struct_phase r f = true <-> (forall s e, In s (fstructs f) -> Struct r (sname s) = Some e -> Extern e = true)).
  { unfold struct_phase. rewrite forallb_forall. unfold okStruct. split.
    - intros H s e Hs He. specialize (H s Hs). now rewrite He in H.
    - intros H s Hs. destruct (Struct r (sname s)) eqn:E; eauto. }
  assert (P2 : context_phase r f = true <-> (forall c, In c (fcontexts f) -> Context r (cname c) = None)).
  { unfold context_phase. rewrite forallb_forall. unfold okContext. split.
    - intros H s Hs. specialize (H s Hs). destruct (Context r (cname s)); congruence.
    - intros H s Hs. now rewrite H. }
  assert (P3 : const_phase r f = true <-> (forall c v, In c (fconstants f) -> Constant r (kname c) = Some v -> v = kvalue c)).
  { unfold const_phase. rewrite forallb_forall. unfold okConst. split.
    - intros H c v Hc Hv. specialize (H (kpair c) (in_map kpair _ _ Hc)). cbn in H. rewrite Hv in H. lia.
    - intros H kv Hkv. apply in_map_iff in Hkv. destruct Hkv as (c & <- & Hc). cbn.
      destruct (Constant r (kname c)) eqn:E; auto. specialize (H c z Hc E). lia. }
  rewrite <- P1, <- P2, <- P3.
  destruct (nodup_dec (map sname (fstructs f))), (struct_phase r f),
    (nodup_dec (map cname (fcontexts f))), (context_phase r f),
    (nodup_dec (map kname (fconstants f))), (const_phase r f); split; intros; try discriminate; try tauto;
    intuition discriminate.
Qed.

Lemma find_name_in : forall {A} (key : A -> string) l a, NoDup (map key l) -> In a l ->
  find (fun b => String.eqb (key a) (key b)) l = Some a.
Proof.
  induction l as [|b l IH]; intros a ND H; [contradiction|]. inversion ND; subst. cbn [find].
  destruct H as [->|H].
  - now rewrite String.eqb_refl.
  - destruct (String.eqb_spec (key a) (key b)) as [E|]; auto.
    exfalso. apply H2. rewrite <- E. now apply in_map.
Qed.
Lemma find_name_none : forall {A} (key : A -> string) l n,
  find (fun b => String.eqb n (key b)) l = None -> forall a, In a l -> key a <> n.
Proof.
  intros A key l n H a Ha E. apply (find_none _ _ H) in Ha. subst n. now rewrite String.eqb_refl in Ha.
Qed.
Lemma find_name_some : forall {A} (key : A -> string) l n a,
  find (fun b => String.eqb n (key b)) l = Some a -> In a l /\ n = key a.
Proof. intros A key l n a H. apply find_some in H. destruct H. split; auto. now apply String.eqb_eq. Qed.

Lemma compat_step : forall r r' f g, self_ok f -> compat_r r f -> answers_after r r' f ->
  (compat_r r' g <-> compat_r r g /\ may_follow f g).
Proof.
  intros r r' f g (N1 & N2 & N3) (R1 & R2 & R3) (A1 & A2 & A3). split.
  - intros (B1 & B2 & B3). split; [split; [|split]|split; [|split]].
    + intros t e Ht He.
      destruct (find (fun s => String.eqb (sname t) (sname s)) (fstructs f)) as [s|] eqn:F.
      * pose proof (find_name_some _ _ _ _ F) as [Is Es]. rewrite Es in He. eapply R1; eauto.
      * eapply B1; eauto. rewrite A1, F. exact He.
    + intros d Hd. specialize (B2 d Hd). rewrite A2 in B2. destruct (find _ _); [discriminate|exact B2].
    + intros d v Hd Hv.
      destruct (find (fun s => String.eqb (kname d) (kname s)) (fconstants f)) as [c|] eqn:F.
      * pose proof (find_name_some _ _ _ _ F) as [Is Es].
        specialize (B3 d (kvalue c) Hd). rewrite A3, F in B3. rewrite <- B3 by auto.
        apply (R3 c v); auto. congruence.
      * apply (B3 d v Hd). now rewrite A3, F.
    + intros s t Hs Ht E. apply (B1 t s Ht). rewrite A1, <- E, (find_name_in sname) by auto. reflexivity.
    + intros c d Hc Hd E. specialize (B2 d Hd). rewrite A2, <- E, (find_name_in cname) in B2 by auto. discriminate.
    + intros c d Hc Hd E. apply (B3 d (kvalue c) Hd). rewrite A3, <- E, (find_name_in kname) by auto. reflexivity.
  - intros ((C1 & C2 & C3) & (M1 & M2 & M3)). split; [|split].
    + intros t e Ht He. rewrite A1 in He.
      destruct (find (fun s => String.eqb (sname t) (sname s)) (fstructs f)) as [s|] eqn:F.
      * pose proof (find_name_some _ _ _ _ F) as [Is Es]. injection He as <-. eapply M1; eauto.
      * eapply C1; eauto.
    + intros d Hd. rewrite A2. destruct (find (fun s => String.eqb (cname d) (cname s)) (fcontexts f)) as [c|] eqn:F.
      * pose proof (find_name_some _ _ _ _ F) as [Is Es]. exfalso. eapply (M2 c d); eauto.
      * auto.
    + intros d v Hd Hv. rewrite A3 in Hv.
      destruct (find (fun s => String.eqb (kname d) (kname s)) (fconstants f)) as [c|] eqn:F.
      * pose proof (find_name_some _ _ _ _ F) as [Is Es]. injection Hv as <-. eapply (M3 c d); eauto.
      * eauto.
Qed.

Definition all_valid (os : nat -> orders) : Prop := forall k, valid_orders (os k).

Lemma addFiles_iff : forall fs os k r, all_valid os ->
  ((exists r', addFiles os k r fs = Ok r') <->
   Forall self_ok fs /\ ForallOrdPairs may_follow fs /\ Forall (compat_r r) fs).
Proof.
  induction fs as [|f fs IH]; intros os k r V; cbn [addFiles].
  - split; eauto. intros _. repeat constructor.
  - destruct (AddFile_spec (os k) r f (V k)) as [E A].
    destruct (AddFile (os k) r f) as [r1 o]. cbn [fst snd] in *. subst o.
    destruct (addfile_outcome r f) as [[]|e|m|] eqn:O.
    + specialize (A eq_refl). apply addfile_outcome_ok in O. destruct O as [O1 O2].
      rewrite (IH os (S k) r1 V). split.
      * intros (F1 & F2 & F3). rewrite Forall_forall in F3.
        split; [constructor; auto|]. split.
        -- constructor; auto. rewrite Forall_forall. intros g Hg. now apply (compat_step r r1 f g O1 O2 A), F3.
        -- constructor; auto. rewrite Forall_forall. intros g Hg. now apply (compat_step r r1 f g O1 O2 A), F3.
      * intros (F1 & F2 & F3). inversion F1; inversion F2; inversion F3; subst.
        split; auto. split; auto. rewrite Forall_forall in *. intros g Hg.
        apply (compat_step r r1 f g O1 O2 A). split; auto.
    + split; [intros (? & ?); discriminate|]. intros (F1 & _ & F3). inversion F1; inversion F3; subst.
      assert (addfile_outcome r f = Ok tt) by (apply addfile_outcome_ok; auto). congruence.
    + split; [intros (? & ?); discriminate|]. intros (F1 & _ & F3). inversion F1; inversion F3; subst.
      assert (addfile_outcome r f = Ok tt) by (apply addfile_outcome_ok; auto). congruence.
    + split; [intros (? & ?); discriminate|]. intros (F1 & _ & F3). inversion F1; inversion F3; subst.
      assert (addfile_outcome r f = Ok tt) by (apply addfile_outcome_ok; auto). congruence.
Qed.

Theorem resolver_accepts_iff : forall os fs, all_valid os ->
  ((exists r, NewResolverFiles os fs = Ok r) <-> Forall self_ok fs /\ ForallOrdPairs may_follow fs).
Proof.
  intros os fs V. unfold NewResolverFiles. rewrite addFiles_iff by auto.
  split; [tauto|]. intros (A & B). repeat split; auto.
  rewrite Forall_forall. intros f _. split; [|split]; unfold Struct, Context, Constant; cbn; intros; try discriminate; auto.
Qed.

(** What an accepting run answers. *)
Lemma addFiles_answers : forall fs os k r r', all_valid os -> addFiles os k r fs = Ok r' ->
  (forall n s, Extern s = false ->
     (Struct r' n = Some s <-> Struct r n = Some s \/ (exists f, In f fs /\ In s (fstructs f) /\ sname s = n))) /\
  (forall n c, Context r' n = Some c <-> Context r n = Some c \/ (exists f, In f fs /\ In c (fcontexts f) /\ cname c = n)) /\
  (forall n v, Constant r' n = Some v <-> Constant r n = Some v \/ (exists f c, In f fs /\ In c (fconstants f) /\ kname c = n /\ kvalue c = v)).
Proof.
  induction fs as [|f fs IH]; intros os k r r' V H; cbn [addFiles] in H.
  - injection H as <-. split; [|split]; intros; split; auto.
    + intros [?|(? & [] & _)]; auto.
    + intros [?|(? & [] & _)]; auto.
    + intros [?|(? & ? & [] & _)]; auto.
  - destruct (AddFile_spec (os k) r f (V k)) as [E A].
    destruct (AddFile (os k) r f) as [r1 o]. cbn [fst snd] in *. subst o.
    destruct (addfile_outcome r f) as [[]|e|m|] eqn:O; try discriminate.
    specialize (A eq_refl). apply addfile_outcome_ok in O. destruct O as [(N1 & N2 & N3) (R1 & R2 & R3)].
    destruct A as (A1 & A2 & A3). destruct (IH os (S k) r1 r' V H) as (B1 & B2 & B3).
    split; [|split].
    + intros n s Es. rewrite B1 by auto. rewrite A1.
      destruct (find (fun a => String.eqb n (sname a)) (fstructs f)) as [a|] eqn:F.
      * pose proof (find_name_some _ _ _ _ F) as [Ia ->]. split.
        -- intros [X|(g & Ig & Hg)]; [injection X as ->|]; right; [exists f|exists g]; cbn; auto.
        -- intros [X|(g & [<-|Ig] & Hs & Hn)].
           ++ specialize (R1 a s Ia X). congruence.
           ++ left. rewrite <- Hn in F. rewrite (find_name_in sname) in F by auto. congruence.
           ++ right. exists g. auto.
      * split.
        -- intros [X|(g & Ig & Hg)]; auto. right. exists g. cbn. auto.
        -- intros [X|(g & [<-|Ig] & Hs & Hn)]; auto.
           ++ exfalso. eapply find_name_none; eauto.
           ++ right. exists g. auto.
    + intros n s. rewrite B2. rewrite A2.
      destruct (find (fun a => String.eqb n (cname a)) (fcontexts f)) as [a|] eqn:F.
      * pose proof (find_name_some _ _ _ _ F) as [Ia ->]. split.
        -- intros [X|(g & Ig & Hg)]; [injection X as ->|]; right; [exists f|exists g]; cbn; auto.
        -- intros [X|(g & [<-|Ig] & Hs & Hn)].
           ++ specialize (R2 a Ia). congruence.
           ++ left. rewrite <- Hn in F. rewrite (find_name_in cname) in F by auto. congruence.
           ++ right. exists g. auto.
      * split.
        -- intros [X|(g & Ig & Hg)]; auto. right. exists g. cbn. auto.
        -- intros [X|(g & [<-|Ig] & Hs & Hn)]; auto.
           ++ exfalso. eapply find_name_none; eauto.
           ++ right. exists g. auto.
    + intros n v. rewrite B3. rewrite A3.
      destruct (find (fun a => String.eqb n (kname a)) (fconstants f)) as [a|] eqn:F.
      * pose proof (find_name_some _ _ _ _ F) as [Ia ->]. split.
        -- intros [X|(g & c & Ig & Hg)]; right; [exists f, a|exists g, c]; cbn; auto.
           injection X as <-. auto.
        -- intros [X|(g & c & [<-|Ig] & Hs & Hn & Hv)].
           ++ left. f_equal. symmetry. eapply R3; eauto.
           ++ left. rewrite <- Hn in F. rewrite (find_name_in kname) in F by auto. congruence.
           ++ right. exists g, c. auto.
      * split.
        -- intros [X|(g & c & Ig & Hg)]; auto. right. exists g, c. cbn. auto.
        -- intros [X|(g & c & [<-|Ig] & Hs & Hn & Hv)]; auto.
           ++ exfalso. eapply find_name_none; eauto.
           ++ right. exists g, c. auto.
Qed.

Lemma opt_ext : forall {A} (x y : option A), (forall a, x = Some a <-> y = Some a) -> x = y.
Proof.
  intros A [a|] y H; [symmetry; now apply H|]. destruct y as [b|]; auto. now apply H.
Qed.

(** If two orders of the same files are both accepted, the answers agree. *)
Theorem reordered_answers_agree : forall os os' fs fs' r r', all_valid os -> all_valid os' ->
  Permutation fs fs' -> NewResolverFiles os fs = Ok r -> NewResolverFiles os' fs' = Ok r' -> agree r r'.
Proof.
  intros os os' fs fs' r r' V V' P H H'.
  destruct (addFiles_answers _ _ _ _ _ V H) as (A1 & A2 & A3).
  destruct (addFiles_answers _ _ _ _ _ V' H') as (B1 & B2 & B3).
  assert (PI : forall f, In f fs <-> In f fs') by (intros; split; apply Permutation_in; auto; now symmetry).
  split; [|split].
  - intros n s E. rewrite A1, B1 by auto. split; (intros [X|(f & X & Y)]; [left; exact X|right; exists f; split; auto; now apply PI]).
  - intros n. apply opt_ext. intros c. rewrite A2, B2.
    split; (intros [X|(f & X & Y)]; [left; exact X|right; exists f; split; auto; now apply PI]).
  - intros n. apply opt_ext. intros c. rewrite A3, B3.
    split; (intros [X|(f & d & X & Y)]; [left; exact X|right; exists f, d; split; auto; now apply PI]).
Qed.

Lemma ordpairs_perm : forall {A} (R : A -> A -> Prop) l l', (forall a b, In a l -> In b l -> R a b -> R b a) ->
  Permutation l l' -> ForallOrdPairs R l -> ForallOrdPairs R l'.
Proof.
  intros A R l l' Sym P. revert Sym. induction P; intros Sym F; auto.
  - inversion F; subst. constructor.
    + eapply Permutation_Forall; eauto.
    + apply IHP; auto. intros; apply Sym; cbn; auto.
  - inversion F as [|? ? F1 F2]; subst. inversion F2 as [|? ? F3 F4]; subst. inversion F1; subst.
    constructor; [constructor|constructor]; auto. apply Sym; cbn; auto.
  - apply IHP2; auto. intros a b Ha Hb. apply Sym; (eapply Permutation_in; [apply Permutation_sym; exact P1|auto]).
Qed.

Theorem reorder_accepted : forall os os' fs fs' r, all_valid os -> all_valid os' -> no_mix fs ->
  Permutation fs fs' -> NewResolverFiles os fs = Ok r ->
  exists r', NewResolverFiles os' fs' = Ok r' /\ agree r r'.
Proof.
  intros os os' fs fs' r V V' NM P H.
  assert (HE : exists r, NewResolverFiles os fs = Ok r) by eauto.
  apply (resolver_accepts_iff os fs V) in HE. destruct HE as [H1 H2].
  assert (HE' : exists r', NewResolverFiles os' fs' = Ok r').
  { apply (resolver_accepts_iff os' fs' V'). split.
    - eapply Permutation_Forall; eauto.
    - eapply ordpairs_perm; eauto. intros f g If Ig (M1 & M2 & M3). split; [|split].
      + intros s t Hs Ht E. rewrite (NM g f s t Ig If Hs Ht E). eapply M1; eauto.
      + intros c d Hc Hd E. eapply M2; eauto.
      + intros c d Hc Hd E. symmetry. eapply M3; eauto. }
  destruct HE' as (r' & Hr'). exists r'. split; auto.
  eapply (reordered_answers_agree os os' fs fs'); eauto.
Qed.

Definition id_orders : orders := mkOrd (fun l => l) (fun l => l) (fun l => l).
Lemma id_orders_valid : all_valid (fun _ => id_orders).
Proof. intros k. split; [|split]; intros; apply Permutation_refl. Qed.

(** Definition first, extern declaration second: rejected; the other way round: accepted. *)
Definition file_def : file := mkFile [] [] [mkStruct "a" [] (Some [MField "x" (TInt 8 None)])] [].
Definition file_ext : file := mkFile [] [] [mkStruct "a" [] None] [].
Theorem order_refuted : exists fs fs' r os, all_valid os /\ Permutation fs fs' /\
  NewResolverFiles os fs = Ok r /\
  NewResolverFiles os fs' = Err "cannot override non-extern struct".
Proof.
  exists [file_ext; file_def], [file_def; file_ext]. eexists. exists (fun _ => id_orders).
  split; [apply id_orders_valid|]. split; [apply perm_swap|]. split; reflexivity.
Qed.

(* ---------- C09 ---------- *)

Theorem addfile_atomic_refuted : exists o r f n s e, valid_orders o /\
  snd (AddFile o r f) = Err e /\ Struct r n = None /\ Struct (fst (AddFile o r f)) n = Some s.
Proof.
  exists id_orders, (mkRes [] [("c", mkCtx "c" [])] []),
    (mkFile [] [mkCtx "c" []] [mkStruct "a" [] (Some [])] []), "a", (mkStruct "a" [] (Some [])),
    "cannot override context".
  split; [apply (id_orders_valid O)|]. repeat split.
Qed.

(* ---------- C10: integer lists ---------- *)

Lemma u64_small : forall z, 0 <= z < two63 -> u64 z = z.
Proof. intros. unfold u64. apply Z.mod_small. unfold two63, two64 in *. lia. Qed.

Lemma Integer_value : forall r i, Integer r i =
  match int_value (Constant r) i with Some v => Ok v | None => Err "constant undefined" end.
Proof. intros r [n|v]; reflexivity. Qed.

Lemma rangeInterval_good : forall r g a b, range_bounds (Constant r) g = Some (a, b) ->
  0 <= a -> a <= b -> b < two63 -> rangeInterval r g = Ok (mkI a b).
Proof.
  intros r g a b H Ha Hab Hb. unfold rangeInterval, range_bounds in *. rewrite Integer_value.
  destruct (int_value (Constant r) (rlow g)) as [l|]; [|discriminate]. cbn [bind].
  destruct (rhigh g) as [h|].
  - rewrite Integer_value. destruct (int_value (Constant r) h) as [h'|]; [|discriminate].
    injection H as -> ->. cbn [bind]. unfold Range. rewrite !u64_small by lia.
    replace (b <? a) with false by lia. reflexivity.
  - injection H as -> ->. unfold Single, Range. rewrite !u64_small by lia.
    replace (b <? b) with false by lia. reflexivity.
Qed.

Lemma rangesIntervals_good : forall r l, good_list (Constant r) l ->
  exists is, mapM (rangeInterval r) l = Ok is /\ Forall valid is /\
    Forall2 (fun g i => range_bounds (Constant r) g = Some (lo i, hi i)) l is.
Proof.
  induction l as [|g l IH]; intros G; cbn [mapM].
  - exists []. repeat split; constructor.
  - inversion G as [|? ? (a & b & Hb & H0 & H1 & H2) G']; subst.
    destruct (IH G') as (is & E & V & F2). rewrite (rangeInterval_good r g a b) by auto. cbn [bind].
    rewrite E. cbn [bind]. eexists; split; [reflexivity|]. split; constructor; auto.
    unfold valid; cbn. unfold two63, two64 in *. lia.
Qed.

Lemma forall2_in_l : forall {A B} (R : A -> B -> Prop) l l' a, Forall2 R l l' -> In a l -> exists b, In b l' /\ R a b.
Proof. induction 1; intros []; subst; [eexists; cbn; eauto|]. destruct IHForall2 as (b & ? & ?); auto. exists b; cbn; auto. Qed.
Lemma forall2_in_r : forall {A B} (R : A -> B -> Prop) l l' b, Forall2 R l l' -> In b l' -> exists a, In a l /\ R a b.
Proof. induction 1; intros []; subst; [eexists; cbn; eauto|]. destruct IHForall2 as (a & ? & ?); auto. exists a; cbn; auto. Qed.

Lemma covers_in_list : forall cv l is x,
  Forall2 (fun g i => range_bounds cv g = Some (lo i, hi i)) l is ->
  (covers is x <-> in_list cv l x).
Proof.
  intros cv l is x F. split.
  - intros (i & Ii & B). destruct (forall2_in_r _ _ _ _ F Ii) as (g & Ig & R). exists g, (lo i), (hi i). auto.
  - intros (g & a & b & Ig & R & B). destruct (forall2_in_l _ _ _ _ F Ig) as (i & Ii & R').
    exists i. split; auto. rewrite R in R'. injection R' as E1 E2. lia.
Qed.

Lemma twice_list_overlaps : forall cv l is,
  Forall2 (fun g i => range_bounds cv g = Some (lo i, hi i)) l is ->
  ((exists x, covers_twice is x) <-> list_overlaps cv l).
Proof.
  intros cv l is F. split.
  - intros (x & l1 & i & l2 & j & l3 & E & Bi & Bj). subst is.
    apply Forall2_app_inv_r in F. destruct F as (g1 & r1 & F1 & R1 & ->).
    inversion R1 as [|g ? r2 ? Rg R2]; subst.
    apply Forall2_app_inv_r in R2. destruct R2 as (g2 & r3 & F2 & R3 & ->).
    inversion R3 as [|h ? r4 ? Rh R4]; subst.
    exists g1, g, g2, h, r4, (lo i), (hi i), (lo j), (hi j), x. auto.
  - intros (l1 & g & l2 & h & l3 & a & b & c & d & x & E & Rg & Rh & Bg & Bh). subst l.
    apply Forall2_app_inv_l in F. destruct F as (g1 & r1 & F1 & R1 & ->).
    inversion R1 as [|? i ? r2 Ri R2]; subst.
    apply Forall2_app_inv_l in R2. destruct R2 as (g2 & r3 & F2 & R3 & ->).
    inversion R3 as [|? j ? r4 Rj R4]; subst.
    rewrite Rg in Ri. rewrite Rh in Rj. injection Ri as E1 E2. injection Rj as E3 E4.
    exists x, g1, i, g2, j, r4. split; auto. lia.
Qed.

Theorem Intervals_correct : forall r l, good_list (Constant r) l ->
  (list_overlaps (Constant r) l /\ Intervals r l = Err "overlapping intervals") \/
  (~ list_overlaps (Constant r) l /\ exists s, Intervals r l = Ok s /\ wf_set s /\
     (forall x, Contains s x = true <-> in_list (Constant r) l x)).
Proof.
  intros r l G. destruct (rangesIntervals_good r l G) as (is & E & V & F).
  unfold Intervals. rewrite E. cbn [bind].
  destruct (overlaps_correct is V) as (b & -> & HB). cbn [bind].
  rewrite (twice_list_overlaps _ _ _ F) in HB. destruct b.
  - left. split; auto. now apply HB.
  - right. split; [intros X; apply HB in X; discriminate|].
    destruct (newset_correct is V) as (s & Es & HC & HW). exists s. split; auto. split; auto.
    intros x. rewrite HC. now apply covers_in_list.
Qed.

(** An undefined constant is an error, whatever else is in the list (unless a
    reversed range comes first, which panics). *)
Theorem Intervals_undefined : forall r l1 g l2, good_list (Constant r) l1 ->
  range_bounds (Constant r) g = None -> Intervals r (l1 ++ g :: l2) = Err "constant undefined".
Proof.
  intros r l1 g l2 G U. destruct (rangesIntervals_good r l1 G) as (is & E & _ & _).
  unfold Intervals. clear G.
  assert (M : mapM (rangeInterval r) (l1 ++ g :: l2) = Err "constant undefined").
  { revert is E. induction l1 as [|h l1 IH]; intros is E; cbn [app mapM] in *.
    - unfold rangeInterval, range_bounds in *. rewrite Integer_value.
      destruct (int_value (Constant r) (rlow g)); cbn [bind]; auto.
      destruct (rhigh g) as [i|]; [|discriminate]. rewrite Integer_value.
      destruct (int_value (Constant r) i); [discriminate|]. reflexivity.
    - destruct (rangeInterval r h); try discriminate. cbn [bind] in *.
      destruct (mapM (rangeInterval r) l1) as [is'| | |]; try discriminate.
      rewrite (IH is' eq_refl). reflexivity. }
  rewrite M. reflexivity.
Qed.

(** A reversed range panics. *)
Theorem Intervals_reversed_panics : exists r l, Intervals r l = Panic "bad range".
Proof. exists NewResolverEmpty, [mkRange (ILit 5) (Some (ILit 3))]. reflexivity. Qed.
