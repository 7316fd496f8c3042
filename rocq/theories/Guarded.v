(** What remains of C09, C18 and C48, whose full statements are false. *)
From Coq Require Import ZArith String List Bool Permutation Lia ZifyBool ZifyNat.
From Verif Require Import Base Ast IntervalsModel InspectModel InspectSpec InspectProofs BranchProofs GoLang GenModel GenDecode GenCheck
  WireSpec WireProofs WireComplete WireFacts PackageSpec PackageProofs PackageFacts PackageMore ParseFacts.
Import ListNotations.
Open Scope string_scope.
Open Scope list_scope.
Open Scope Z_scope.

(* ---------- C09 ---------- *)

Section Loop.
Context {A V : Type} (add : resolver -> A -> mres) (key : A -> string) (val : A -> V)
        (look : resolver -> string -> option V) (okv : option V -> A -> bool)
        (set : resolver -> A -> resolver) (msg : string).
Hypothesis Hadd : forall r a, add r a =
  if okv (look r (key a)) a then (set r a, Ok tt) else (r, Err msg).
Hypothesis Hlook : forall r a n, look (set r a) n =
  if String.eqb n (key a) then Some (val a) else look r n.

Lemma addAll_new : forall l r n, NoDup (map key l) ->
  look (fst (addAll add r l)) n = look r n \/
  exists a, In a l /\ key a = n /\ look (fst (addAll add r l)) n = Some (val a) /\ okv (look r n) a = true.
Proof.
  induction l as [|a l IH]; intros r n ND; cbn [addAll]; auto. inversion ND as [|? ? N1 N2]; subst.
  rewrite Hadd. destruct (okv (look r (key a)) a) eqn:E; cbn [fst]; [|now left].
  destruct (IH (set r a) n N2) as [H|(b & I & K & H & O)].
  - rewrite H, Hlook. destruct (String.eqb_spec n (key a)) as [->|]; [right|now left].
    exists a. split; [now left|]. auto.
  - rewrite Hlook in O. destruct (String.eqb_spec n (key a)) as [->|]; [exfalso; apply N1; rewrite <- K; now apply in_map|].
    right. exists b. split; [now right|auto].
Qed.
End Loop.

Definition onlyNew (r r' : resolver) (f : file) : Prop :=
  (forall n, Struct r' n = Struct r n \/
     exists s, In s (fstructs f) /\ sname s = n /\ Struct r' n = Some s /\ (forall e, Struct r n = Some e -> Extern e = true)) /\
  (forall n, Context r' n = Context r n \/
     exists c, In c (fcontexts f) /\ cname c = n /\ Context r' n = Some c /\ Context r n = None) /\
  (forall n, Constant r' n = Constant r n \/
     exists c, In c (fconstants f) /\ kname c = n /\ Constant r' n = Some (kvalue c) /\ Constant r n = None).

Lemma addfile_only_new : forall o r f, valid_orders o -> onlyNew r (fst (AddFile o r f)) f.
Proof.
  intros o r f (O1 & O2 & O3). unfold AddFile.
  assert (REFL : onlyNew r r f) by (repeat split; auto).
  destruct (Structs_spec f) as [(N1 & sm & -> & E1)|(N1 & ->)]; [|exact REFL].
  rewrite E1. specialize (O1 (fstructs f)).
  assert (N1' : NoDup (map sname (ord_structs o (fstructs f)))).
  { eapply Permutation_NoDup; [|exact N1]. apply Permutation_map. now symmetry. }
  pose proof (fun n => addAll_new _ _ (fun s => s) _ _ _ _ AddStruct_eq setStruct_look _ r n N1') as L1.
  pose proof (addAll_frame _ _ _ _ _ _ AddStruct_eq _ contexts (fun _ _ => eq_refl) (ord_structs o (fstructs f)) r) as F1.
  pose proof (addAll_frame _ _ _ _ _ _ AddStruct_eq _ constants (fun _ _ => eq_refl) (ord_structs o (fstructs f)) r) as F2.
  destruct (addAll AddStruct r (ord_structs o (fstructs f))) as [r1 e1]. cbn [fst] in L1, F1, F2.
  assert (S1 : onlyNew r r1 f).
  { split; [|split; intros n; left; unfold Context, Constant; congruence].
    intros n. destruct (L1 n) as [H|(a & I & K & H & OK)]; [now left|right]. exists a. split; [now apply (Permutation_in _ O1)|].
    split; auto. split; auto. intros e He. rewrite He in OK. exact OK. }
  destruct e1 as [[]| | |]; try exact S1.
  destruct (Contexts_spec f) as [(M1 & cm & -> & E2)|(M1 & ->)]; [|exact S1].
  rewrite E2. specialize (O2 (fcontexts f)).
  assert (M1' : NoDup (map cname (ord_contexts o (fcontexts f)))).
  { eapply Permutation_NoDup; [|exact M1]. apply Permutation_map. now symmetry. }
  pose proof (fun n => addAll_new _ _ (fun s => s) _ _ _ _ AddContext_eq setContext_look _ r1 n M1') as L2.
  pose proof (addAll_frame _ _ _ _ _ _ AddContext_eq _ structs (fun _ _ => eq_refl) (ord_contexts o (fcontexts f)) r1) as G1.
  pose proof (addAll_frame _ _ _ _ _ _ AddContext_eq _ constants (fun _ _ => eq_refl) (ord_contexts o (fcontexts f)) r1) as G2.
  destruct (addAll AddContext r1 (ord_contexts o (fcontexts f))) as [r2 e2]. cbn [fst] in L2, G1, G2.
  assert (S2 : onlyNew r r2 f).
  { destruct S1 as (A & B & C). split; [|split].
    - intros n. unfold Struct in *. rewrite G1. apply A.
    - intros n. destruct (L2 n) as [H|(a & I & K & H & OK)]; [left|right]; unfold Context in *.
      + now rewrite H, F1.
      + exists a. split; [now apply (Permutation_in _ O2)|]. split; auto. split; auto. rewrite F1 in OK. now destruct (alookup n (contexts r)).
    - intros n. unfold Constant in *. rewrite G2. apply C. }
  destruct e2 as [[]| | |]; try exact S2.
  destruct (Constants_spec f) as [(K1 & ->)|(K1 & ->)]; [|exact S2].
  specialize (O3 (map kpair (fconstants f))).
  assert (K1' : NoDup (map fst (ord_constants o (map kpair (fconstants f))))).
  { eapply Permutation_NoDup; [symmetry; apply Permutation_map, O3|]. now rewrite map_map. }
  pose proof (fun n => addAll_new _ _ _ _ _ _ _ SetConstant_eq setConst_look _ r2 n K1') as L3.
  pose proof (addAll_frame _ _ _ _ _ _ SetConstant_eq _ structs (fun _ _ => eq_refl) (ord_constants o (map kpair (fconstants f))) r2) as H1.
  pose proof (addAll_frame _ _ _ _ _ _ SetConstant_eq _ contexts (fun _ _ => eq_refl) (ord_constants o (map kpair (fconstants f))) r2) as H2.
  destruct (addAll _ r2 (ord_constants o (map kpair (fconstants f)))) as [r3 e3]. cbn [fst] in *.
  destruct S2 as (A & B & C). split; [|split].
  - intros n. unfold Struct in *. rewrite H1. apply A.
  - intros n. unfold Context in *. rewrite H2. apply B.
  - intros n. destruct (L3 n) as [H|(a & I & K & H & OK)].
    + left. rewrite H. unfold Constant. now rewrite G2, F2.
    + assert (EQ : Constant r2 n = Constant r n) by (unfold Constant; now rewrite G2, F2).
      apply (Permutation_in _ O3) in I. apply in_map_iff in I as (c & <- & I). cbn [fst snd kpair] in *.
      rewrite EQ in OK. destruct (Constant r n) as [v|] eqn:EV.
      * left. cbn in OK. rewrite H. f_equal. lia.
      * right. exists c. auto.
Qed.

(** The one failure that is atomic. *)
Lemma addfile_dup_struct : forall o r f, ~ NoDup (map sname (fstructs f)) -> AddFile o r f = (r, Err "duplicate struct name").
Proof. intros o r f N. unfold AddFile. destruct (Structs_spec f) as [(N1 & _)|(_ & ->)]; [contradiction|reflexivity]. Qed.

(* ---------- C18, C48 ---------- *)

Section Pack.
Variable camel : string -> string.
Variable os : nat -> orders.
Variable fs : list file.
Variable r : resolver.
Variable p : program.
Hypothesis PK : package camel os fs r p.
Notation cv := (Constant r).
Notation sv := (Struct r).

Lemma no_fail : forall lenient cenv ms pos f w tl f', encMs camel cv sv lenient cenv pos ms f w tl f' -> ~ In MFail ms.
Proof.
  intros lenient cenv. induction ms as [|m ms IH]; intros pos f w tl f' H; [easy|]. inversion H; subst.
  intros [->|I]; [|eapply IH; eauto].
  match goal with K : encM _ _ _ _ _ _ MFail _ _ _ _ |- _ => inversion K end.
Qed.

Lemma case_matches_dec : forall c x, {case_matches cv c x} + {~ case_matches cv c x}.
Proof.
  intros c x. unfold case_matches. destruct (ucase_list c) as [l|]; [|right; intros (l & L & _); discriminate].
  pose (P := fun g => exists a b, range_bounds cv g = Some (a, b) /\ a <= x <= b).
  assert (D : forall g, {P g} + {~ P g}).
  { intros g. unfold P. destruct (range_bounds cv g) as [[a b]|]; [|right; intros (a & b & H & _); discriminate].
    destruct (Z_le_dec a x); [|right; intros (a' & b' & H & K); injection H as <- <-; lia].
    destruct (Z_le_dec x b); [|right; intros (a' & b' & H & K); injection H as <- <-; lia]. left. exists a, b. auto. }
  destruct (Exists_dec P l D) as [E|E]; [left|right].
  - apply Exists_exists in E as (g & I & a & b & H & K). exists l. split; auto. exists g, a, b. auto.
  - intros (l' & L & g & a & b & I & H & K). injection L as <-. apply E, Exists_exists. exists g. split; auto. exists a, b. auto.
Qed.

Lemma default_fail : forall s fs0 data args, validCall camel fs r s fs0 data args -> ptrFiles fs = true ->
  forall fs1 rest, parses camel p s fs0 data args fs1 rest ->
  forall u tag len cs x c0, present camel r (contextsOf s args) fs1 (members_of s) (MUnion u tag len cs) ->
  refers camel (contextsOf s args) fs1 tag x -> In c0 cs -> ucase_list c0 = None -> In MFail (ucase_members c0) ->
  exists c l, In c cs /\ ucase_list c = Some l /\ in_list cv l x.
Proof.
  intros s fs0 data args VC PT fs1 rest HP u tag len cs x c0 P R I0 D0 F0.
  destruct (case_in camel os fs r p PK _ _ _ _ VC PT _ _ HP _ _ _ _ P) as (x' & pre & w & tl & more & fsa & fsb & _ & R' & T & _).
  rewrite <- (refers_fun _ _ _ _ _ _ R R') in T.
  destruct (Exists_dec (fun c => case_matches cv c x) cs (fun c => case_matches_dec c x)) as [E|E].
  - apply Exists_exists in E as (c & I & l & L & K). exists c, l. auto.
  - exfalso. assert (TK : takes cv cs x c0).
    { right. split; [|auto]. apply Forall_forall. intros c I M. apply E, Exists_exists. eauto. }
    exact (no_fail _ _ _ _ _ _ _ _ (T c0 TK) F0).
Qed.

Lemma same_map : forall {A} (l l' : amap A), map fst l = map fst l' -> NoDup (map fst l) ->
  (forall n, In n (map fst l) -> alookup n l = alookup n l') -> l = l'.
Proof.
  intros A. induction l as [|[n v] l IH]; intros [|[n' v'] l'] D N E; cbn in D; try discriminate; auto.
  assert (n = n' /\ map fst l = map fst l') as [<- D'] by (split; congruence).
  cbn in N. inversion N as [|? ? N1 N2]; subst.
  pose proof (E n (or_introl eq_refl)) as V. cbn [alookup] in V. rewrite String.eqb_refl in V. injection V as <-.
  f_equal. apply IH; auto. intros m I. specialize (E m (or_intror I)). cbn [alookup] in E.
  destruct (String.eqb_spec m n) as [EQ|]; auto. rewrite EQ in I. contradiction.
Qed.

Lemma fresh_receiver : forall s data args fa fb,
  validCall camel fs r s fa data args -> validCall camel fs r s fb data args -> ptrFiles fs = true ->
  forall fa1 rest, parses camel p s fa data args fa1 rest ->
  (forall nm t, In (nm, t) (flat_map allFields (members_of s)) -> present camel r (contextsOf s args) fa1 (members_of s) (MField nm t)) ->
  parses camel p s fb data args fa1 rest.
Proof.
  intros s data args fa fb VA VB PT fa1 rest HA ALL.
  destruct (receivers camel os fs r p PK _ _ _ _ _ VA VB PT _ _ HA) as (fb1 & HB & F).
  assert (DA : map fst fa1 = map camel (flat_map fieldNames (members_of s))).
  { rewrite (final_dom camel os fs r p PK _ _ _ _ VA _ _ PT HA). exact (vc_dom camel fs r _ _ _ _ VA). }
  assert (DB : map fst fb1 = map camel (flat_map fieldNames (members_of s))).
  { rewrite (final_dom camel os fs r p PK _ _ _ _ VB _ _ PT HB). exact (vc_dom camel fs r _ _ _ _ VB). }
  destruct (parts camel os fs r p PK _ _ _ _ VA) as (_ & _ & ND).
  assert (fa1 = fb1) as ->; [|exact HB]. apply same_map.
  - congruence.
  - rewrite DA. exact ND.
  - intros n I. rewrite DA in I. apply in_map_iff in I as (nm & <- & I). rewrite names_fields in I.
    apply in_map_iff in I as ([nm' t] & E & I). cbn in E. subst nm'.
    destruct (F nm t I) as [(_ & _ & H)|(N & _)]; auto. exfalso. apply N. auto.
Qed.

(** Structs without fields in unions meet the condition. *)
Definition flatFields (s : struct) : Prop :=
  forall nm t, In (nm, t) (flat_map allFields (members_of s)) -> In (MField nm t) (members_of s).
Lemma fresh_receiver_flat : forall s data args fa fb,
  validCall camel fs r s fa data args -> validCall camel fs r s fb data args -> ptrFiles fs = true -> flatFields s ->
  forall fa1 rest, parses camel p s fa data args fa1 rest -> parses camel p s fb data args fa1 rest.
Proof.
  intros s data args fa fb VA VB PT FF fa1 rest HA. apply (fresh_receiver s data args fa fb VA VB PT fa1 rest HA).
  intros nm t I. constructor. exact (FF nm t I).
Qed.
End Pack.
