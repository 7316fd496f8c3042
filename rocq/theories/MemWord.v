(** Code that keeps its numbers within 32 bits does the same on 32-bit and on
    64-bit platforms. *)
From Coq Require Import ZArith String List Bool Lia ZifyBool ZifyNat.
From Verif Require Import Base GoLang WireSpec WireProofs GoMem MemSim MemExec WordSpec.
Import ListNotations.
Open Scope string_scope.
Open Scope list_scope.
Open Scope Z_scope.

(* ---------- kinds ---------- *)

(** Types with a zero value. *)
Fixpoint sized (g : gtype) : bool :=
  match g with
  | GUint b => 0 <=? b
  | GArray _ h => sized h
  | _ => true
  end.

(** What is known of a value: input, a number in a range, a value of a type, nil,
    nothing. *)
Inductive kind : Type :=
| KIn
| KNum (lo hi : Z)
| KTy (g : gtype)
| KNil
| KAny.
Definition kctx := list (string * kind).

Definition numOf (k : kind) : option (Z * Z) :=
  match k with
  | KNum lo hi => Some (lo, hi)
  | KTy (GUint b) => Some (0, 2 ^ b)
  | KTy GByte => Some (0, 256)
  | KTy GInt => Some (- two31, two31)
  | _ => None
  end.
Inductive sub : kind -> kind -> Prop :=
| sub_refl k : sub k k
| sub_nil_in : sub KNil KIn
| sub_nil g : sub KNil (KTy g)
| sub_num lo hi g lo' hi' : numOf (KTy g) = Some (lo', hi') -> lo' <= lo -> hi <= hi' -> sub (KNum lo hi) (KTy g).

Definition kv (S : list otype) (k : kind) (v : hval) : Prop :=
  match k with
  | KIn => goInput S v
  | KNum lo hi => match v with HInt z => lo <= z < hi | HNil | HStr _ | HErr _ | HBool _ => True | _ => False end
  | KTy g => goVal S g v
  | KNil => v = HNil
  | KAny => True
  end.
Definition envK (S : list otype) (G : kctx) (e : henv) : Prop := Forall2 (fun g x => fst g = fst x /\ kv S (snd g) (snd x)) G e.

Definition ext (S S' : list otype) : Prop := exists d, S' = S ++ d.
Lemma ext_refl : forall S, ext S S.
Proof. intros S. exists []. now rewrite app_nil_r. Qed.
Lemma ext_trans : forall A B C, ext A B -> ext B C -> ext A C.
Proof. intros A B C [x ->] [y ->]. exists (x ++ y). now rewrite app_assoc. Qed.
Lemma ext_nth : forall S S' p o, ext S S' -> nth_error S p = Some o -> nth_error S' p = Some o.
Proof. intros S S' p o [d ->] E. rewrite nth_error_app1; auto. apply nth_error_Some. congruence. Qed.
Lemma goVal_ext : forall S S' g v, ext S S' -> goVal S g v -> goVal S' g v.
Proof.
  intros S S' g v X V. induction V; try (constructor; auto; fail).
  - constructor. eapply ext_nth; eauto.
  - constructor. eapply ext_nth; eauto.
Qed.
Lemma kv_ext : forall S S' k v, ext S S' -> kv S k v -> kv S' k v.
Proof.
  intros S S' k v X V. destruct k; cbn [kv] in *; auto.
  - destruct V as [->|(b & o & l & c & -> & A & B & C)]; [now left|right]. exists b, o, l, c. repeat split; auto. eapply ext_nth; eauto.
  - eapply goVal_ext; eauto.
Qed.
Lemma envK_ext : forall S S' G e, ext S S' -> envK S G e -> envK S' G e.
Proof. intros S S' G e X V. induction V as [|g x G e [A B] V IH]; constructor; auto. split; auto. eapply kv_ext; eauto. Qed.
Lemma sub_kv : forall S k k' v, sub k k' -> kv S k v -> kv S k' v.
Proof.
  intros S k k' v X V. destruct X; auto.
  - cbn in *. now left.
  - cbn in *. subst. constructor.
  - cbn [kv] in *. destruct g; cbn [numOf] in H; try discriminate; unfold two31 in H; injection H as <- <-; destruct v; try contradiction;
      first [apply gv_str | apply gv_nil | apply gv_err | apply gv_bool | apply gv_uint; lia | apply gv_byte; lia | apply gv_int; unfold two31 in *; lia].
Qed.
Lemma num_kv : forall S k lo hi z, numOf k = Some (lo, hi) -> kv S k (HInt z) -> lo <= z < hi.
Proof.
  intros S k lo hi z N V. destruct k as [|l h|g| |]; cbn [numOf] in N; try discriminate.
  - injection N as <- <-. exact V.
  - cbn [kv] in V. destruct g; try discriminate; injection N as <- <-; inversion V; subst; auto.
Qed.
Lemma env_lookup : forall S G e, envK S G e -> forall x k, alookup x G = Some k -> exists v, alookup x e = Some v /\ kv S k v.
Proof.
  intros S G e V. induction V as [|[a k] [b v] G e [A B] V IH]; intros x k0 L; [discriminate|]. cbn [fst snd] in *. subst b. cbn [alookup] in *.
  destruct (String.eqb x a); [injection L as ->; eauto|auto].
Qed.
Lemma env_assign : forall S G e, envK S G e -> forall x k v, alookup x G = Some k -> kv S k v -> envK S G (hassign x v e).
Proof.
  intros S G e V. induction V as [|[a k] [b w] G e [A B] V IH]; intros x k0 v L K; [constructor|]. cbn [fst snd] in *. subst b. cbn [alookup hassign] in *.
  destruct (String.eqb x a) eqn:E; constructor; auto; try (now split).
  - injection L as ->. now split.
  - eapply IH; eauto.
Qed.
Lemma env_length : forall S G e, envK S G e -> List.length e = List.length G.
Proof. intros S G e V. induction V; cbn; auto. Qed.
Lemma env_leave : forall S d G e1 e0, envK S (d ++ G) e1 -> List.length e0 = List.length G -> envK S G (hleave e0 e1).
Proof.
  intros S d G e1 e0 V L. unfold hleave. rewrite (env_length _ _ _ V), app_length, L. replace (List.length d + List.length G - List.length G)%nat with (List.length d) by lia.
  clear L e0. revert e1 V. induction d as [|x d IH]; intros e1 V; [exact V|]. inversion V; subst. cbn [List.length skipn]. auto.
Qed.

(* ---------- expressions ---------- *)

Section Kinds.
Variable types : amap (list (string * gtype)).
Section Ctx.
Variable G : kctx.
Inductive hasK : expr -> kind -> Prop :=
| k_int z : hasK (EInt z) (KNum z (z + 1))
| k_var x k : alookup x G = Some k -> hasK (EVar x) k
| k_sel a n ds f g : hasK a (KTy (GPtr n)) -> alookup n types = Some ds -> alookup f ds = Some g -> hasK (ESel a f) (KTy g)
| k_idxIn a i k : hasK a KIn -> hasK i k -> hasK (EIdx a i) (KNum 0 256)
| k_idxS a i g k : hasK a (KTy (GSlice g)) -> hasK i k -> hasK (EIdx a i) (KTy g)
| k_idxA a i n g k : hasK a (KTy (GArray n g)) -> hasK i k -> hasK (EIdx a i) (KTy g)
| k_len a : hasK a KIn -> hasK (ELen a) (KNum 0 two31)
| k_toInt a k lo hi : hasK a k -> numOf k = Some (lo, hi) -> - two31 <= lo -> hi <= two31 -> hasK (EToInt a) (KNum lo hi)
| k_add a b ka kb l1 h1 l2 h2 : hasK a ka -> hasK b kb -> numOf ka = Some (l1, h1) -> numOf kb = Some (l2, h2) ->
    - two31 <= l1 + l2 -> h1 + h2 - 1 <= two31 -> hasK (EBin BAdd a b) (KNum (l1 + l2) (h1 + h2 - 1))
| k_sub a b ka kb l1 h1 l2 h2 : hasK a ka -> hasK b kb -> numOf ka = Some (l1, h1) -> numOf kb = Some (l2, h2) ->
    - two31 <= l1 - h2 + 1 -> h1 - l2 <= two31 -> hasK (EBin BSub a b) (KNum (l1 - h2 + 1) (h1 - l2))
| k_bin o a b ka kb : match o with BAdd | BSub => False | _ => True end -> hasK a ka -> hasK b kb -> hasK (EBin o a b) KAny
| k_not a k : hasK a k -> hasK (ENot a) KAny
| k_paren a k : hasK a k -> hasK (EParen a) k
| k_notNil a k : hasK a k -> hasK (ENotNil a) KAny
| k_from a i k : hasK a KIn -> hasK i k -> hasK (EFrom a i) KIn
| k_to a i k : hasK a KIn -> hasK i k -> hasK (ETo a i) KIn
| k_be bits a : hasK a KIn -> hasK (EBigEndian bits a) (KNum 0 (2 ^ bits))
| k_index a z : hasK a KIn -> hasK (EIndexByte a z) (KNum (-1) (two31 - 1))
| k_str a : hasK a KIn -> hasK (EStringOf a) (KTy GString)
| k_empty : hasK EEmptyBytes KIn
| k_make g n k lo hi : sized g = true -> hasK n k -> numOf k = Some (lo, hi) -> 0 <= hsize 4 g <= hsize 8 g -> hi * hsize 8 g < 2 ^ 32 -> hasK (EMake g n) (KTy (GSlice g))
| k_new n ds : alookup n types = Some ds -> (forall f g, alookup f ds = Some g -> sized g = true) -> hasK (ENew n) (KTy (GPtr n))
| k_append a b g k : hasK a (KTy (GSlice g)) -> hasK b k -> sub k (KTy g) -> hasK (EAppend a b) (KTy (GSlice g))
| k_nil : hasK ENil KNil
| k_err m : hasK (EError m) (KTy GError)
| k_blank : hasK EBlank KAny.

(** Places that may be assigned values of a kind. *)
Inductive place : lval -> kind -> Prop :=
| p_var x k : alookup x G = Some k -> place (LVar x) k
| p_field l f n ds g : hasK (lexpr l) (KTy (GPtr n)) -> alookup n types = Some ds -> alookup f ds = Some g -> place (LField l f) (KTy g)
| p_idxS l i g k : hasK (lexpr l) (KTy (GSlice g)) -> hasK i k -> place (LIdx l i) (KTy g)
| p_idxA l i n g k : place l (KTy (GArray n g)) -> hasK (lexpr l) (KTy (GArray n g)) -> hasK i k -> place (LIdx l i) (KTy g).
End Ctx.

Notation goHeap := (goHeap types).
Notation goObj := (goObj types).

Lemma heap_at : forall S H p t, goHeap S H -> nth_error S p = Some t -> exists o, nth_error H p = Some o /\ goObj S t o.
Proof.
  unfold WordSpec.goHeap. intros S H p t V. generalize (eq_refl S). generalize S at 2 4. intros S0 E0 N.
  assert (K : forall (a : list otype) (b : list obj), Forall2 (goObj S0) a b -> forall p t, nth_error a p = Some t -> exists o, nth_error b p = Some o /\ goObj S0 t o).
  { intros a b F. induction F; intros [|q] u M; cbn in M; try discriminate; cbn; eauto. injection M as <-. eauto. }
  subst S0. eapply K; eauto.
Qed.
Lemma goObj_ext : forall S S' t o, ext S S' -> goObj S t o -> goObj S' t o.
Proof.
  intros S S' [n|g|] o X V; cbn in *; auto.
  - destruct V as (fs & -> & V). exists fs. split; auto. intros. eapply goVal_ext; eauto.
  - destruct V as (l & -> & V). exists l. split; auto. intros. eapply goVal_ext; eauto.
Qed.
Lemma heap_length : forall S H, goHeap S H -> List.length S = List.length H.
Proof. intros S H V. unfold WordSpec.goHeap in V. induction V; cbn; auto. Qed.
Lemma heap_alloc : forall S H t o, goHeap S H -> goObj (S ++ [t]) t o -> ext S (S ++ [t]) /\ goHeap (S ++ [t]) (H ++ [o]) /\ nth_error (S ++ [t]) (List.length H) = Some t.
Proof.
  intros S H t o V O. assert (X : ext S (S ++ [t])) by (now exists [t]). split; auto. split.
  - apply Forall2_app; [|constructor; auto]. unfold WordSpec.goHeap in V. revert V X O. generalize (S ++ [t]). intros S' V X O.
    assert (K : forall a b, Forall2 (goObj S) a b -> Forall2 (goObj S') a b).
    { intros a b F. induction F; constructor; auto. eapply goObj_ext; eauto. }
    auto.
  - rewrite <- (heap_length _ _ V), nth_error_app2, Nat.sub_diag by lia. reflexivity.
Qed.
Lemma heap_set : forall S H p t o, goHeap S H -> nth_error S p = Some t -> goObj S t o -> goHeap S (hset p o H).
Proof.
  unfold WordSpec.goHeap, hset. intros S H p t o V N O.
  assert (K : forall (a : list otype) (b : list obj), Forall2 (goObj S) a b -> forall p, nth_error a p = Some t -> Forall2 (goObj S) a (updN b p o)).
  { intros a b F. induction F; intros [|q] M; cbn in M; try discriminate; cbn [updN]; constructor; auto. now injection M as ->. }
  auto.
Qed.

Lemma goVal_zero : forall S g, sized g = true -> goVal S g (hzero g).
Proof.
  intros S. induction g; intros Z; cbn [hzero sized] in *; try apply gv_nil; try apply gv_str.
  - apply gv_uint. split; [lia|]. apply Z.pow_pos_nonneg; lia.
  - apply gv_byte. lia.
  - apply gv_int. unfold two31. lia.
  - apply gv_array. intros v I. apply repeat_spec in I. subst. auto.
Qed.
Lemma goVal_ptr : forall S n p, goVal S (GPtr n) (HPtr p) -> nth_error S p = Some (OTstruct n).
Proof. intros S n p V. inversion V; subst. auto. Qed.
Lemma goVal_elem : forall S g v, goVal S (elemType g) v <-> goVal S g v.
Proof. intros S [] v; cbn [elemType]; try tauto. split; intros V; inversion V; subst; constructor; auto. Qed.
Lemma goVal_slice : forall S g b o l c, goVal S (GSlice g) (HSlice b o l c) -> nth_error S b = Some (OTarray (elemType g)).
Proof. intros S g b o l c V. inversion V; subst. auto. Qed.
Lemma goVal_in : forall S g n l v, goVal S (GArray n g) (HArr l) -> In v l -> goVal S g v.
Proof. intros S g n l v V I. inversion V; subst. auto. Qed.
Lemma nthZ_in : forall A (l : list A) z v, nthZ l z = Some v -> In v l.
Proof. intros A l z v E. unfold nthZ in E. destruct (z <? 0); [discriminate|]. eapply nth_error_In; eauto. Qed.
Lemma updN_in : forall A (l : list A) k v x, In x (updN l k v) -> x = v \/ In x l.
Proof. induction l as [|a l IH]; destruct k; cbn; intros v x I; auto; destruct I as [->|I]; auto. apply IH in I. intuition. Qed.
Lemma In_skipn' : forall A n (l : list A) x, In x (skipn n l) -> In x l.
Proof. intros A n l x I. rewrite <- (firstn_skipn n l). apply in_or_app. auto. Qed.
Lemma In_firstn' : forall A n (l : list A) x, In x (firstn n l) -> In x l.
Proof. intros A n l x I. rewrite <- (firstn_skipn n l). apply in_or_app. auto. Qed.
Lemma elements_in : forall S H b off len l g v, goHeap S H -> nth_error S b = Some (OTarray g) -> elements H b off len = Some l -> In v l -> goVal S g v.
Proof.
  intros S H b off len l g v V N E I. destruct (heap_at _ _ _ _ V N) as (o & NH & xs & -> & X). unfold elements in E. rewrite NH in E. injection E as <-.
  apply X. eapply In_skipn'. eapply In_firstn'. exact I.
Qed.
Lemma ints_in : forall l b, ints l = Some b -> forall z, In z b -> In (HInt z) l.
Proof.
  induction l as [|v l IH]; intros b E z I; cbn [ints] in E; [injection E as <-; destruct I|]. destruct v; try discriminate. destruct (ints l) as [b'|]; [|discriminate].
  injection E as <-. destruct I as [->|I]; [now left|right; eauto].
Qed.
Lemma ints_len : forall l b, ints l = Some b -> List.length b = List.length l.
Proof.
  induction l as [|v l IH]; intros b E; cbn [ints] in E; [injection E as <-; auto|]. destruct v; try discriminate. destruct (ints l) as [b'|]; [|discriminate].
  injection E as <-. cbn. f_equal. auto.
Qed.
(** Bytes of the input. *)
Lemma input_bytes : forall S H v b, goHeap S H -> goInput S v -> bytesOf H v = Some b -> Forall (fun z => 0 <= z < 256) b /\ blen b < two31.
Proof.
  intros S H v b V [->|(p & o & l & c & -> & N & B1 & B2)] E; cbn [bytesOf] in E.
  - injection E as <-. split; [constructor|]. reflexivity.
  - destruct (elements H p o l) as [xs|] eqn:EL; [|discriminate]. split.
    + apply Forall_forall. intros z I. pose proof (elements_in _ _ _ _ _ _ _ _ V N EL (ints_in _ _ E _ I)) as GV. inversion GV; subst. auto.
    + unfold blen. rewrite (ints_len _ _ E). destruct (heap_at _ _ _ _ V N) as (ob & NH & ys & -> & X). unfold elements in EL. rewrite NH in EL. injection EL as <-.
      rewrite firstn_length. lia.
Qed.
Lemma be_range : forall b, Forall (fun z => 0 <= z < 256) b -> 0 <= be b < 2 ^ (8 * blen b).
Proof.
  intros b F. unfold be. assert (K : forall b a k, Forall (fun z => 0 <= z < 256) b -> 0 <= k -> 0 <= a < 2 ^ (8 * k) ->
    0 <= fold_left (fun a x => a * 256 + x) b a < 2 ^ (8 * (k + blen b))).
  { clear. induction b as [|x b IH]; intros a k F K A; cbn [fold_left].
    - unfold blen. cbn [List.length]. rewrite Z.add_0_r. exact A.
    - inversion F; subst. replace (k + blen (x :: b)) with (k + 1 + blen b) by (unfold blen; cbn [List.length]; lia). apply IH; [auto|lia|].
      replace (8 * (k + 1)) with (8 * k + 8) by lia. rewrite Z.pow_add_r by lia. change (2 ^ 8) with 256. lia. }
  specialize (K b 0 0 F). cbn in K. apply K; lia.
Qed.

Lemma indexByte_range : forall b z, -1 <= indexByte b z 0 < Z.max 0 (blen b).
Proof.
  intros b z. assert (K : forall b k, 0 <= k -> indexByte b z k = -1 \/ k <= indexByte b z k < k + blen b).
  { clear. induction b as [|x b IH]; intros k P; cbn [indexByte]; [now left|]. unfold blen in *. cbn [List.length]. destruct (x =? z); [lia|]. specialize (IH (k + 1)). lia. }
  specialize (K b 0). lia.
Qed.
Lemma sint_small : forall w z, w = 4 \/ w = 8 -> - two31 <= z < two31 -> sint w z = z.
Proof.
  intros w z W B. unfold sint, two31 in *. destruct W as [-> | ->].
  - change (2 ^ (8 * 4)) with 4294967296. change (4294967296 / 2) with 2147483648. destruct (Z.ltb_spec (z mod 4294967296) 2147483648); lia.
  - change (2 ^ (8 * 8)) with 18446744073709551616. change (18446744073709551616 / 2) with 9223372036854775808.
    destruct (Z.ltb_spec (z mod 18446744073709551616) 9223372036854775808); lia.
Qed.

Variable pl : platform.
Hypothesis W : word pl = 4.
Definition pl8 : platform := mkPlatform 8 (grow pl).
Notation ev := (heval pl types).
Notation ev8 := (heval pl8 types).

Definition evalPost (S : list otype) (k : kind) (r : outcome (hval * heap)) : Prop :=
  forall v H', r = Ok (v, H') -> exists S', ext S S' /\ goHeap S' H' /\ kv S' k v.

Ltac sub IH S X V K :=
  let E := fresh "E" in let P := fresh "P" in
  match goal with HH : goHeap ?s ?h, EE : envK ?s _ ?e |- _ => destruct (IH s h e HH EE) as [E P] end;
  rewrite <- E; clear E;
  match type of P with evalPost _ _ ?r => destruct r as [[? ?]| | |] eqn:?; cbn [bind]; try (split; [reflexivity|intros ? ? ?; discriminate]) end;
  destruct (P _ _ eq_refl) as (S & X & V & K); clear P.
Ltac done := solve [split; [reflexivity|intros ? ? EQ; discriminate EQ]].
Ltac ret := split; [reflexivity|let EQ := fresh in intros ? ? EQ; injection EQ as <- <-].

Lemma num_word : forall S k lo hi v, numOf k = Some (lo, hi) -> kv S k v -> match v with HInt z => lo <= z < hi | _ => True end.
Proof. intros S k lo hi v N V. destruct v; auto. eapply num_kv; eauto. Qed.
Lemma repeat_nil : forall S g n v, In v (repeat HNil n) -> goVal S g v.
Proof. intros S g n v I. apply repeat_spec in I. subst. apply gv_nil. Qed.

Lemma heval_same : forall G x k, hasK G x k -> forall S H e, goHeap S H -> envK S G e -> ev H e x = ev8 H e x /\ evalPost S k (ev H e x).
Proof.
  intros G x k D. induction D; intros S0 HP EN HH EE; cbn [heval].
  - ret. exists S0. split; [apply ext_refl|]. split; auto. cbn. lia.
  - destruct (env_lookup _ _ _ EE _ _ H) as (v & L & K). rewrite L. ret. exists S0. split; [apply ext_refl|]. auto.
  - sub IHD S1 X1 V1 K1. destruct h; try done. destruct (heap_at _ _ _ _ V1 (goVal_ptr _ _ _ K1)) as (o & NH & fs & -> & FS). rewrite NH.
    destruct (alookup f fs) as [w|] eqn:LF; [ret|done]. exists S1. split; auto. split; auto. cbn [kv]. eauto.
  - sub IHD1 S1 X1 V1 K1. pose proof (envK_ext _ _ _ _ X1 EE) as EE1. clear HH EE. sub IHD2 S2 X2 V2 K2. destruct h; try done.
    + destruct h1; try done. destruct (elements _ _ _ _) as [l|] eqn:EL; [|done]. destruct (nthZ l z) as [w|] eqn:NW; [ret|done].
      exists S2. split; [eapply ext_trans; eauto|]. split; auto. destruct K1 as [K1|(b' & o' & l' & c' & EQ & N & _)]; [discriminate|]. injection EQ as <- <- <- <-.
      pose proof (elements_in _ _ _ _ _ _ _ _ V2 (ext_nth _ _ _ _ X2 N) EL (nthZ_in _ _ _ _ NW)) as GV. inversion GV; subst; cbn; auto.
    + destruct K1 as [K1|(b' & o' & l' & c' & EQ & N & _)]; discriminate.
    + destruct h1; done.
  - sub IHD1 S1 X1 V1 K1. pose proof (envK_ext _ _ _ _ X1 EE) as EE1. clear HH EE. sub IHD2 S2 X2 V2 K2. destruct h; try done.
    + destruct h1; try done. destruct (elements _ _ _ _) as [l|] eqn:EL; [|done]. destruct (nthZ l z) as [w|] eqn:NW; [ret|done].
      exists S2. split; [eapply ext_trans; eauto|]. split; auto. 
      exact (proj1 (goVal_elem _ _ _) (elements_in _ _ _ _ _ _ _ _ V2 (ext_nth _ _ _ _ X2 (goVal_slice _ _ _ _ _ _ K1)) EL (nthZ_in _ _ _ _ NW))).
    + inversion K1.
    + destruct h1; done.
  - sub IHD1 S1 X1 V1 K1. pose proof (envK_ext _ _ _ _ X1 EE) as EE1. clear HH EE. sub IHD2 S2 X2 V2 K2. destruct h; try done.
    + inversion K1.
    + destruct h1; try done. destruct (nthZ l z) as [w|] eqn:NW; [ret|done]. exists S2. split; [eapply ext_trans; eauto|]. split; auto. cbn [kv].
      eapply goVal_ext; [exact X2|]. eapply goVal_in; [exact K1|]. eapply nthZ_in; eauto.
    + destruct h1; done.
  - sub IHD S1 X1 V1 K1. destruct K1 as [-> |(b & o & l & c & -> & N & B1 & B2)]; ret; exists S1; (split; [auto|split; [auto|]]); cbn; unfold two31 in *; lia.
  - sub IHD S1 X1 V1 K1. pose proof (num_word _ _ _ _ _ H K1) as R. destruct h; try done. rewrite W. cbn [word pl8]. rewrite !sint_small by (auto; lia).
    ret. exists S1. repeat split; auto; lia.
  - sub IHD1 S1 X1 V1 K1. pose proof (envK_ext _ _ _ _ X1 EE) as EE1. clear HH EE. sub IHD2 S2 X2 V2 K2.
    pose proof (num_word _ _ _ _ _ H K1) as R1. pose proof (num_word _ _ _ _ _ H0 K2) as R2. destruct h; try done. destruct h3; try done.
    unfold hevalBin. rewrite W. cbn [word pl8]. rewrite !sint_small by (auto; lia). ret. exists S2. split; [eapply ext_trans; eauto|]. split; auto. cbn. lia.
  - sub IHD1 S1 X1 V1 K1. pose proof (envK_ext _ _ _ _ X1 EE) as EE1. clear HH EE. sub IHD2 S2 X2 V2 K2.
    pose proof (num_word _ _ _ _ _ H K1) as R1. pose proof (num_word _ _ _ _ _ H0 K2) as R2. destruct h; try done. destruct h3; try done.
    unfold hevalBin. rewrite W. cbn [word pl8]. rewrite !sint_small by (auto; lia). ret. exists S2. split; [eapply ext_trans; eauto|]. split; auto. cbn. lia.
  - (* other operations *)
    destruct o; try contradiction.
    1-4: sub IHD1 S1 X1 V1 K1; pose proof (envK_ext _ _ _ _ X1 EE) as EE1; clear HH EE; sub IHD2 S2 X2 V2 K2; destruct h; try done; destruct h1; try done;
      ret; exists S2; (split; [eapply ext_trans; eauto|split; [auto|exact I]]).
    + sub IHD1 S1 X1 V1 K1. pose proof (envK_ext _ _ _ _ X1 EE) as EE1. destruct h; try done. destruct b0; [|ret; exists S1; cbn; auto]. clear HH EE.
      sub IHD2 S2 X2 V2 K2. destruct h; try done. ret. exists S2. split; [eapply ext_trans; eauto|]. split; auto; exact I.
    + sub IHD1 S1 X1 V1 K1. pose proof (envK_ext _ _ _ _ X1 EE) as EE1. destruct h; try done. destruct b0; [ret; exists S1; cbn; auto|]. clear HH EE.
      sub IHD2 S2 X2 V2 K2. destruct h; try done. ret. exists S2. split; [eapply ext_trans; eauto|]. split; auto; exact I.
  - sub IHD S1 X1 V1 K1. destruct h; try done. ret. exists S1. cbn. auto.
  - apply IHD; auto.
  - sub IHD S1 X1 V1 K1. destruct h; try done; ret; exists S1; cbn; auto.
  - sub IHD1 S1 X1 V1 K1. pose proof (envK_ext _ _ _ _ X1 EE) as EE1. clear HH EE. sub IHD2 S2 X2 V2 K2. destruct h; try done. destruct h1; try done.
    destruct (_ || _); [done|ret]. exists S2. split; [eapply ext_trans; eauto|]. split; auto. destruct K1 as [K1|(b' & o' & l' & c' & EQ & N & B1 & B2)]; [discriminate|].
    injection EQ as <- <- <- <-. right. do 4 eexists. split; [reflexivity|]. split; [eapply ext_nth; eauto|]. lia.
  - sub IHD1 S1 X1 V1 K1. pose proof (envK_ext _ _ _ _ X1 EE) as EE1. clear HH EE. sub IHD2 S2 X2 V2 K2. destruct h; try done. destruct h1; try done.
    destruct (_ || _) eqn:OR; [done|ret]. exists S2. split; [eapply ext_trans; eauto|]. split; auto. destruct K1 as [K1|(b' & o' & l' & c' & EQ & N & B1 & B2)]; [discriminate|].
    injection EQ as <- <- <- <-. right. do 4 eexists. split; [reflexivity|]. split; [eapply ext_nth; eauto|]. lia.
  - sub IHD S1 X1 V1 K1. destruct (bytesOf h0 h) as [b|] eqn:B; [|done]. destruct ((bits =? 16) || (bits =? 32) || (bits =? 64)) eqn:BT; [|done].
    destruct (blen b <? bits / 8) eqn:L; [done|ret]. exists S1. split; auto. split; auto. destruct (input_bytes _ _ _ _ V1 K1 B) as [F _]. cbn [kv].
    assert (F2 : Forall (fun z => 0 <= z < 256) (firstn (Z.to_nat (bits / 8)) b)) by (apply Forall_forall; intros z I; rewrite Forall_forall in F; apply F; eapply In_firstn'; eauto).
    pose proof (be_range _ F2) as R. replace (8 * blen (firstn (Z.to_nat (bits / 8)) b)) with bits in R; [exact R|]. unfold blen in *. rewrite firstn_length.
    assert (bits = 16 \/ bits = 32 \/ bits = 64) as [-> |[-> | ->]] by lia; lia.
  - sub IHD S1 X1 V1 K1. destruct (bytesOf h0 h) as [b|] eqn:B; [|done]. ret. exists S1. split; auto. split; auto. destruct (input_bytes _ _ _ _ V1 K1 B) as [_ L]. cbn [kv].
    pose proof (indexByte_range b z). unfold two31 in *; lia.
  - sub IHD S1 X1 V1 K1. destruct (bytesOf h0 h) as [b|] eqn:B; [|done]. ret. exists S1. split; auto. split; auto. apply gv_str.
  - unfold alloc. ret. destruct (heap_alloc S0 HP (OTarray (GUint 8)) (OArray []) HH) as (X & V & N).
    + exists []. split; auto. intros v [].
    + eexists. split; [exact X|]. split; [exact V|]. right. do 4 eexists. split; [reflexivity|]. split; [exact N|]. unfold two31. lia.
  - sub IHD S1 X1 V1 K1. pose proof (num_word _ _ _ _ _ H0 K1) as R. destruct h; try done. rewrite W. cbn [word pl8].
    change (hmax 4) with 4294967295. change (hmax 8) with maxAlloc. change (2 ^ 32) with 4294967296 in *.
    assert (B : (z <? 0) || (4294967295 <? z * hsize 4 g) = ((z <? 0) || (maxAlloc <? z * hsize 8 g))).
    { destruct (z <? 0) eqn:Z0; auto. cbn [orb]. assert (z * hsize 4 g <= z * hsize 8 g) by nia. assert (z * hsize 8 g <= hi * hsize 8 g) by nia.
      unfold maxAlloc. lia. }
    rewrite B. clear B. destruct ((z <? 0) || (maxAlloc <? z * hsize 8 g)); [done|]. unfold alloc. ret. destruct (heap_alloc S1 h0 (OTarray (elemType g)) (OArray (repeat (hzero g) (Z.to_nat z))) V1) as (X & V & N).
    + eexists. split; [reflexivity|]. intros v I. apply repeat_spec in I. subst. apply goVal_elem, goVal_zero. auto.
    + eexists. split; [eapply ext_trans; eauto|]. split; [exact V|]. apply gv_slice. exact N.
  - rewrite H. unfold alloc. ret. destruct (heap_alloc S0 HP (OTstruct n) (OStruct n (hzeros ds)) HH) as (X & V & N).
    + eexists. split; [reflexivity|]. intros ds' f g v L1 L2 L3. rewrite H in L1. injection L1 as <-. unfold hzeros in L3.
      assert (v = hzero g).
      { clear - L2 L3. induction ds as [|[a t] ds IH]; cbn [alookup map fst snd] in *; [discriminate|]. destruct (String.eqb f a); [congruence|auto]. }
      subst. apply goVal_zero. eauto.
    + eexists. split; [exact X|]. split; [exact V|]. apply gv_ptr. exact N.
  - sub IHD1 S1 X1 V1 K1. pose proof (envK_ext _ _ _ _ X1 EE) as EE1. clear HH EE. sub IHD2 S2 X2 V2 K2. pose proof (proj2 (goVal_elem _ _ _) (sub_kv _ _ _ _ H K2 : goVal _ _ _)) as K3. destruct h; try done.
    + pose proof (ext_nth _ _ _ _ X2 (goVal_slice _ _ _ _ _ _ K1)) as N. destruct (heap_at _ _ _ _ V2 N) as (o & NH & xs & -> & XS). rewrite NH.
      destruct (len <? cap)%nat.
      * ret. exists S2. split; [eapply ext_trans; eauto|]. split.
        -- eapply heap_set; eauto. eexists. split; [reflexivity|]. intros v I. apply updN_in in I as [-> |I]; auto.
        -- apply gv_slice. auto.
      * unfold alloc. cbn [grow pl8]. ret. destruct (heap_alloc S2 h2 (OTarray (elemType g)) (OArray (firstn len (skipn off xs) ++ h1 :: repeat HNil (Nat.max (S len) (grow pl len) - S len))) V2) as (X & V & N2).
        -- eexists. split; [reflexivity|]. intros v I. apply (goVal_ext S2); [exists [OTarray (elemType g)]; reflexivity|]. apply in_app_or in I as [I|[<-|I]]; auto.
           ++ apply XS. eapply In_skipn'. eapply In_firstn'. eauto.
           ++ eapply repeat_nil; eauto.
        -- eexists. split; [eapply ext_trans; [eapply ext_trans; eauto|eauto]|]. split; [exact V|]. apply gv_slice. exact N2.
    + unfold alloc. cbn [grow pl8]. ret. destruct (heap_alloc S2 h2 (OTarray (elemType g)) (OArray (h1 :: repeat HNil (Nat.max 1 (grow pl 0) - 1))) V2) as (X & V & N2).
      * eexists. split; [reflexivity|]. intros v I. apply (goVal_ext S2); [exists [OTarray (elemType g)]; reflexivity|]. destruct I as [<-|I]; auto. eapply repeat_nil; eauto.
      * eexists. split; [eapply ext_trans; [eapply ext_trans; eauto|eauto]|]. split; [exact V|]. apply gv_slice. exact N2.
  - ret. exists S0. split; [apply ext_refl|]. split; auto. reflexivity.
  - ret. exists S0. split; [apply ext_refl|]. split; auto. apply gv_err.
  - done.
Qed.

(* ---------- places ---------- *)

Lemma alookup_hassign : forall A (fs : list (string * A)) f v f' w, alookup f' (hassign f v fs) = Some w -> (f' = f /\ w = v) \/ alookup f' fs = Some w.
Proof.
  intros A fs f v f' w. induction fs as [|[a x] fs IH]; cbn [hassign alookup]; [discriminate|]. destruct (String.eqb_spec f a).
  - subst. cbn [alookup]. destruct (String.eqb_spec f' a); [intros E; injection E as ->; auto|auto].
  - cbn [alookup]. destruct (String.eqb f' a); auto.
Qed.

Definition storePost (S : list otype) (G : kctx) (r : outcome (heap * henv)) : Prop :=
  forall H' e', r = Ok (H', e') -> exists S', ext S S' /\ goHeap S' H' /\ envK S' G e'.
Ltac subE D S X V K :=
  let E := fresh "E" in let P := fresh "P" in
  match goal with HH : goHeap ?s ?h, EE : envK ?s _ ?e |- _ => destruct (heval_same _ _ _ D s h e HH EE) as [E P] end;
  rewrite <- E; clear E;
  match type of P with evalPost _ _ ?r => destruct r as [[? ?]| | |] eqn:?; cbn [bind hlift]; try (split; [reflexivity|first [exact I|intros ? ? ?; discriminate]]) end;
  destruct (P _ _ eq_refl) as (S & X & V & K); clear P.

Lemma hstore_same : forall G l k, place G l k -> forall S H e v, goHeap S H -> envK S G e -> kv S k v ->
  hstore pl types H e l v = hstore pl8 types H e l v /\ storePost S G (hstore pl types H e l v).
Proof.
  intros G l k D. induction D; intros S0 HP EN v HH EE KV; cbn [hstore].
  - destruct (env_lookup _ _ _ EE _ _ H) as (w & L & K). rewrite L. ret. exists S0. split; [apply ext_refl|]. split; auto. eapply env_assign; eauto.
  - subE H S1 X1 V1 K1. destruct h; try done. pose proof (goVal_ptr _ _ _ K1) as N. destruct (heap_at _ _ _ _ V1 N) as (o & NH & fs & -> & FS). rewrite NH.
    destruct (alookup f fs) as [w|] eqn:LF; [ret|done]. exists S1. split; auto. split; [|eapply envK_ext; eauto]. eapply heap_set; eauto.
    eexists. split; [reflexivity|]. intros ds' f' g' w' L1 L2 L3. apply alookup_hassign in L3 as [[-> ->]|L3]; [|eauto]. rewrite H0 in L1. injection L1 as <-.
    rewrite H1 in L2. injection L2 as <-. exact (goVal_ext _ _ _ _ X1 KV).
  - subE H S1 X1 V1 K1. pose proof (envK_ext _ _ _ _ X1 EE) as EE1. pose proof (kv_ext _ _ _ _ X1 KV) as KV1. clear HH EE KV. subE H0 S2 X2 V2 K2.
    destruct h; try done.
    + destruct h1; try done. pose proof (ext_nth _ _ _ _ X2 (goVal_slice _ _ _ _ _ _ K1)) as N. destruct (heap_at _ _ _ _ V2 N) as (o & NH & xs & -> & XS). rewrite NH.
      destruct (_ && _); [ret|done]. exists S2. split; [eapply ext_trans; eauto|]. split; [|eapply envK_ext; eauto]. eapply heap_set; eauto.
      eexists. split; [reflexivity|]. intros w I. apply updN_in in I as [-> |I]; auto. apply goVal_elem. exact (goVal_ext _ _ _ _ X2 KV1).
    + inversion K1.
    + destruct h1; done.
  - subE H S1 X1 V1 K1. pose proof (envK_ext _ _ _ _ X1 EE) as EE1. pose proof (kv_ext _ _ _ _ X1 KV) as KV1. clear HH EE KV. subE H0 S2 X2 V2 K2.
    destruct h; try done.
    + inversion K1.
    + destruct h1; try done. destruct (nthZ l0 z) as [w|] eqn:NW; [|done].
      destruct (IHD S2 h2 EN (HArr (updN l0 (Z.to_nat z) v)) V2 (envK_ext _ _ _ _ X2 EE1)) as [E P].
      { apply gv_array. intros w' I. apply updN_in in I as [-> |I]; [exact (goVal_ext _ _ _ _ X2 KV1)|]. eapply goVal_ext; [exact X2|]. eapply goVal_in; [exact K1|]. auto. }
      split; auto. intros H' e' Q. destruct (P _ _ Q) as (S3 & X3 & V3 & E3). exists S3. split; auto. eapply ext_trans; [|exact X3]. eapply ext_trans; eauto.
    + destruct h1; done.
Qed.

(* ---------- statements ---------- *)

(** The kinds of the parameters of the Parse method of a type. *)
Variable sigs : string -> list kind -> Prop.
(** What a function returns besides an error. *)
Variable rk : kind.

Inductive wS : kctx -> stmt -> kctx -> Prop :=
| wDecl G x a k : hasK G a k -> wS G (SDecl x a) ((x, k) :: G)
| wVar G x g : sized g = true -> wS G (SVar x g) ((x, KTy g) :: G)
| wSet G l a k k' : hasK G a k -> place G l k' -> sub k k' -> wS G (SAssign l a) G
| wSet2 G l1 l2 a b k1 k1' k2 k2' : hasK G a k1 -> hasK G b k2 -> place G l1 k1' -> place G l2 k2' -> sub k1 k1' -> sub k2 k2' -> wS G (SAssign2 l1 l2 a b) G
| wIf G c b k G' : hasK G c k -> wB G b G' -> wS G (SIf c b) G
| wBlock G b G' : wB G b G' -> wS G (SBlock b) G
| wFor G x bound b k lo m G' : 0 <= m < two31 -> hasK ((x, KNum 0 (m + 1)) :: G) bound k -> numOf k = Some (lo, m + 1) ->
    wB ((x, KNum 0 m) :: G) b G' -> wS G (SForLt x bound b) G
| wWhile G c b k G' : hasK G c k -> wB G b G' -> wS G (SWhile c b) G
| wSwitch G cs : wC G cs -> wS G (SSwitch cs) G
| wReturn G a b k1 k2 : hasK G a k1 -> hasK G b k2 -> sub k1 rk -> sub k2 (KTy GError) -> wS G (SReturn a b) G
| wParse G x err o a args n ks : hasK G (lexpr o) (KTy (GPtr n)) -> hasK G a KIn -> sigs n ks -> Forall2 (hasK G) args ks ->
    alookup x G = Some KIn -> alookup err G = Some (KTy GError) -> wS G (SParse x err o a args) G
| wParseDecl G err o a args n ks : hasK G (lexpr o) (KTy (GPtr n)) -> hasK G a KIn -> sigs n ks -> Forall2 (hasK G) args ks ->
    wS G (SParseDecl err o a args) ((err, KTy GError) :: G)
with wB : kctx -> list stmt -> kctx -> Prop :=
| wNil G : wB G [] G
| wCons G s b G1 G2 : wS G s G1 -> wB G1 b G2 -> wB G (s :: b) G2
with wC : kctx -> list (option expr * list stmt) -> Prop :=
| wCnil G : wC G []
| wCsome G c b k G' cs : hasK G c k -> wB G b G' -> wC G cs -> wC G ((Some c, b) :: cs)
| wCnone G b G' cs : wB G b G' -> wC G cs -> wC G ((None, b) :: cs).
Scheme wS_mut := Minimality for wS Sort Prop with wB_mut := Minimality for wB Sort Prop with wC_mut := Minimality for wC Sort Prop.
Combined Scheme w_ind from wS_mut, wB_mut, wC_mut.

Lemma w_grows : (forall G s G', wS G s G' -> exists d, G' = d ++ G) /\ (forall G b G', wB G b G' -> exists d, G' = d ++ G) /\ (forall G cs, wC G cs -> True).
Proof.
  apply w_ind; intros; auto; try (exists []; reflexivity).
  - eexists [_]. reflexivity.
  - eexists [_]. reflexivity.
  - eexists [_]. reflexivity.
  - destruct H0 as [d ->], H2 as [d' ->]. exists (d' ++ d). now rewrite app_assoc.
Qed.
Definition wB_grows := proj1 (proj2 w_grows).

Variables call call8 : hcallfun.
Variable n : nat.
Definition retPost (S : list otype) (k : kind) (H : heap) (r : hres) : Prop :=
  match r with HRet v w => exists S', ext S S' /\ goHeap S' H /\ kv S' k v /\ goVal S' GError w | _ => True end.
Hypothesis CALL : forall S H ty ks recv d vs, goHeap S H -> goVal S (GPtr ty) recv -> goInput S d -> sigs ty ks -> Forall2 (kv S) ks vs ->
  call H recv d vs = call8 H recv d vs /\ retPost S KIn (fst (call H recv d vs)) (snd (call H recv d vs)).
Notation ex := (hexec pl types call n).
Notation ex8 := (hexec pl8 types call8 n).
Notation exs := (hexecs pl types call n).
Notation exs8 := (hexecs pl8 types call8 n).

Definition execPost (S : list otype) (G : kctx) (st : hstate) : Prop :=
  let '(H, e, r) := st in
  match r with HNext => exists S', ext S S' /\ goHeap S' H /\ envK S' G e | _ => retPost S rk H r end.
Lemma execPost_ext : forall S S1 G st, ext S S1 -> execPost S1 G st -> execPost S G st.
Proof.
  intros S S1 G [[H e] r] X P. unfold execPost in *. destruct r; auto.
  - destruct P as (S2 & X2 & P). exists S2. split; auto. eapply ext_trans; eauto.
  - destruct P as (S2 & X2 & P). exists S2. split; auto. eapply ext_trans; eauto.
Qed.
Definition sameS (G : kctx) (s : stmt) (G' : kctx) : Prop := forall S H e, goHeap S H -> envK S G e -> ex s H e = ex8 s H e /\ execPost S G' (ex s H e).
Definition sameB (G : kctx) (b : list stmt) (G' : kctx) : Prop := forall S H e, goHeap S H -> envK S G e -> exs b H e = exs8 b H e /\ execPost S G' (exs b H e).
Notation blk := (hblock pl types call n).
Notation blk8 := (hblock pl8 types call8 n).
Definition sameK (G : kctx) (b : list stmt) : Prop := forall S H e, goHeap S H -> envK S G e -> blk b H e = blk8 b H e /\ execPost S G (blk b H e).

Lemma same_block : forall G b G', wB G b G' -> sameB G b G' -> sameK G b.
Proof.
  intros G b G' D K S H e HH EE. destruct (wB_grows _ _ _ D) as [d ->]. destruct (K S H e HH EE) as [E P]. unfold hblock. rewrite <- E.
  destruct (exs b H e) as [[H1 e1] r]. split; auto. unfold execPost in *. destruct r; auto. destruct P as (S1 & X1 & V1 & E1). exists S1. split; auto. split; auto.
  eapply env_leave; eauto. apply env_length in EE. exact EE.
Qed.

Lemma evals_same : forall G args ks, Forall2 (hasK G) args ks -> forall S H e, goHeap S H -> envK S G e ->
  hevals pl types H e args = hevals pl8 types H e args /\
  forall vs H', hevals pl types H e args = Ok (vs, H') -> exists S', ext S S' /\ goHeap S' H' /\ Forall2 (kv S') ks vs.
Proof.
  intros G args ks F. induction F as [|a k args ks D F IH]; intros S0 HP EN HH EE; cbn [hevals].
  - ret. exists S0. split; [apply ext_refl|]. split; auto.
  - subE D S1 X1 V1 K1. pose proof (envK_ext _ _ _ _ X1 EE) as EE1. destruct (IH S1 h0 EN V1 EE1) as [E P]. rewrite <- E.
    destruct (hevals pl types h0 EN args) as [[vs H2]| | |]; cbn [bind]; try done. destruct (P _ _ eq_refl) as (S2 & X2 & V2 & K2). ret.
    exists S2. split; [eapply ext_trans; eauto|]. split; auto. constructor; auto. eapply kv_ext; eauto.
Qed.

Ltac subS D v S X V E1 :=
  let E := fresh "E" in let P := fresh "P" in
  match goal with HH : goHeap ?s ?h, EE : envK ?s _ ?e, KV : kv ?s _ v |- _ => destruct (hstore_same _ _ _ D s h e v HH EE KV) as [E P] end;
  rewrite <- E; clear E;
  match type of P with storePost _ _ ?r => destruct r as [[? ?]| | |] eqn:?; cbn [bind hlift]; try (split; [reflexivity|exact I]) end;
  destruct (P _ _ eq_refl) as (S & X & V & E1); clear P.

Lemma forLoop_eq : forall pl types call n x bound b j H e, hforLoop pl types call n x bound b j H e =
  hlift H e (heval pl types H e (EBin BLt (EVar x) bound)) (fun '(v, H) =>
  match v with
  | HBool false => (H, e, HNext)
  | HBool true =>
      match j with
      | O => (H, e, HFuel)
      | Datatypes.S m' =>
          let '(H1, e1, r) := hblock pl types call n b H e in
          match r with
          | HNext => hlift H1 e1 (heval pl types H1 e1 (EBin BAdd (EVar x) (EInt 1))) (fun '(w, H2) => hforLoop pl types call n x bound b m' H2 (hassign x w e1))
          | _ => (H1, e1, r)
          end
      end
  | _ => (H, e, HPanic "ill-typed")
  end).
Proof. intros. destruct j; reflexivity. Qed.
Lemma for_same : forall G x bound b k lo m G', 0 <= m < two31 -> hasK ((x, KNum 0 (m + 1)) :: G) bound k -> numOf k = Some (lo, m + 1) ->
  wB ((x, KNum 0 m) :: G) b G' -> sameK ((x, KNum 0 m) :: G) b -> forall j S H e, goHeap S H -> envK S ((x, KNum 0 (m + 1)) :: G) e ->
  hforLoop pl types call n x bound b j H e = hforLoop pl8 types call8 n x bound b j H e /\
  execPost S ((x, KNum 0 (m + 1)) :: G) (hforLoop pl types call n x bound b j H e).
Proof.
  intros G x bound b k lo m G' M D NK WB SB. induction j as [|j IH]; intros S0 HP EN HH EE.
  all: assert (EX := EE); inversion EX as [|g1 [y vx] ? e' [N1 K1] ER EQ1 EQ2]; subst; cbn [fst snd] in *; subst y.
  all: rewrite !forLoop_eq; cbn [heval alookup]; rewrite String.eqb_refl; cbn [bind].
  all: destruct (heval_same _ _ _ D _ _ _ HH EE) as [E P]; rewrite <- E; clear E; destruct (ev HP ((x, vx) :: e') bound) as [[w H1]| | |] eqn:EW; cbn [bind hlift];
    try (split; [reflexivity|exact I]); destruct (P _ _ eq_refl) as (S1 & X1 & V1 & K2); clear P;
    pose proof (num_word _ _ _ _ _ NK K2) as R; destruct vx as [z| | | | | | |]; try (split; [reflexivity|exact I]); destruct w as [q| | | | | | |]; try (split; [reflexivity|exact I]);
    cbn [hevalBin hlift]; destruct (Z.ltb_spec z q) as [LT|GE].
  - split; [reflexivity|exact I].
  - split; [reflexivity|]. exists S1. split; auto. split; auto. eapply envK_ext; eauto.
  - assert (EB : envK S1 ((x, KNum 0 m) :: G) ((x, HInt z) :: e')).
    { pose proof (envK_ext _ _ _ _ X1 ER) as ER1. constructor; auto. split; auto. cbn in *. lia. }
    destruct (SB S1 H1 _ V1 EB) as [E P]. rewrite <- E. destruct (blk b H1 ((x, HInt z) :: e')) as [[H2 e2] r]. destruct r; try (split; [reflexivity|eapply execPost_ext; eauto]).
    destruct P as (S2 & X2 & V2 & E2). assert (EX2 := E2). inversion EX2 as [|g2 [y vy] ? e'' [N2 K3] ER2 EQ1 EQ2]; subst. cbn [fst snd] in *. subst y.
    cbn [heval alookup]. rewrite String.eqb_refl. cbn [bind]. destruct vy as [z'| | | | | | |]; try (split; [reflexivity|exact I]). cbn [hevalBin hlift]. rewrite W. cbn [word pl8].
    cbn in K3. rewrite !sint_small by (auto; unfold two31 in *; lia). cbn [hassign]. rewrite String.eqb_refl.
    destruct (IH S2 H2 ((x, HInt (z' + 1)) :: e'') V2) as [E3 P3].
    + constructor; auto. split; auto. cbn. lia.
    + split; auto. eapply execPost_ext; [|exact P3]. eapply ext_trans; eauto.
  - split; [reflexivity|]. exists S1. split; auto. split; auto. eapply envK_ext; eauto.
Qed.

Lemma while_same : forall G c b k, hasK G c k -> sameK G b -> forall j S H e, goHeap S H -> envK S G e ->
  hwhileLoop pl types call n c b j H e = hwhileLoop pl8 types call8 n c b j H e /\ execPost S G (hwhileLoop pl types call n c b j H e).
Proof.
  intros G c b k D SB. induction j as [|j IH]; intros S0 HP EN HH EE; cbn [hwhileLoop]; subE D S1 X1 V1 K1;
    destruct h as [| | | | | | |[]]; try (split; [reflexivity|exact I]).
  - split; [reflexivity|]. exists S1. split; auto. split; auto. eapply envK_ext; eauto.
  - pose proof (envK_ext _ _ _ _ X1 EE) as EE1. destruct (SB S1 h0 EN V1 EE1) as [E P]. rewrite <- E.
    destruct (blk b h0 EN) as [[H2 e2] r]. destruct r; try (split; [reflexivity|eapply execPost_ext; eauto]).
    destruct P as (S2 & X2 & V2 & E2). destruct (IH S2 H2 e2 V2 E2) as [E3 P3]. split; auto. eapply execPost_ext; [|exact P3]. eapply ext_trans; eauto.
  - split; [reflexivity|]. exists S1. split; auto. split; auto. eapply envK_ext; eauto.
Qed.

Lemma exec_same : (forall G s G', wS G s G' -> sameS G s G') /\ (forall G b G', wB G b G' -> sameB G b G') /\
  (forall G cs, wC G cs -> (forall S H e, goHeap S H -> envK S G e -> hswDefault pl types call n e cs H = hswDefault pl8 types call8 n e cs H /\ execPost S G (hswDefault pl types call n e cs H)) /\
     forall all S H e, goHeap S H -> envK S G e ->
       (forall S H, goHeap S H -> envK S G e -> hswDefault pl types call n e all H = hswDefault pl8 types call8 n e all H /\ execPost S G (hswDefault pl types call n e all H)) ->
       hswPick pl types call n e all cs H = hswPick pl8 types call8 n e all cs H /\ execPost S G (hswPick pl types call n e all cs H)).
Proof.
  apply w_ind.
  - intros G x a k D S0 HP EN HH EE. cbn [hexec]. subE D S1 X1 V1 K1. split; [reflexivity|]. exists S1. split; auto. split; auto. constructor; auto.
    eapply envK_ext; eauto.
  - intros G x g SZ S0 HP EN HH EE. cbn [hexec]. split; [reflexivity|]. exists S0. split; [apply ext_refl|]. split; auto. constructor; auto. split; auto. now apply goVal_zero.
  - intros G l a k k' D PL SU S0 HP EN HH EE. cbn [hexec]. subE D S1 X1 V1 K1. pose proof (envK_ext _ _ _ _ X1 EE) as EE1. pose proof (sub_kv _ _ _ _ SU K1) as K2. clear HH EE.
    subS PL h S2 X2 V2 E2. split; [reflexivity|]. exists S2. split; [eapply ext_trans; eauto|]. auto.
  - intros G l1 l2 a b k1 k1' k2 k2' D1 D2 P1 P2 U1 U2 S0 HP EN HH EE. cbn [hexec]. subE D1 S1 X1 V1 K1. pose proof (envK_ext _ _ _ _ X1 EE) as EE1. clear HH EE.
    subE D2 S2 X2 V2 K2. pose proof (envK_ext _ _ _ _ X2 EE1) as EE2. clear V1 EE1. pose proof (sub_kv _ _ _ _ U1 (kv_ext _ _ _ _ X2 K1)) as K3. subS P1 h S3 X3 V3 E3.
    pose proof (sub_kv _ _ _ _ U2 (kv_ext _ _ _ _ X3 K2)) as K4. clear V2 EE2. subS P2 h1 S4 X4 V4 E4. split; [reflexivity|]. exists S4. split; auto.
    eapply ext_trans; [|exact X4]. eapply ext_trans; [|exact X3]. eapply ext_trans; eauto.
  - intros G c b k G' D WB IH S0 HP EN HH EE. rewrite !hexec_if. subE D S1 X1 V1 K1. destruct h as [| | | | | | |[]]; try (split; [reflexivity|exact I]).
    + destruct (same_block _ _ _ WB IH S1 h0 EN V1 (envK_ext _ _ _ _ X1 EE)) as [E P]. split; auto. eapply execPost_ext; eauto.
    + split; [reflexivity|]. exists S1. split; auto. split; auto. eapply envK_ext; eauto.
  - intros G b G' WB IH S0 HP EN HH EE. rewrite !hexec_block. eapply same_block; eauto.
  - intros G x bound b k lo m G' M D NK WB IH S0 HP EN HH EE. rewrite !hexec_for.
    destruct (for_same G x bound b k lo m G' M D NK WB (same_block _ _ _ WB IH) n S0 HP ((x, HInt 0) :: EN) HH) as [E P].
    { constructor; auto. split; auto. cbn. lia. }
    rewrite <- E. destruct (hforLoop pl types call n x bound b n HP ((x, HInt 0) :: EN)) as [[H1 e1] r]. split; [reflexivity|]. unfold execPost in *. destruct r; auto.
    destruct P as (S1 & X1 & V1 & E1). exists S1. split; auto. split; auto. apply (env_leave S1 [(x, KNum 0 (m + 1))]); auto. eapply env_length; eauto.
  - intros G c b k G' D WB IH S0 HP EN HH EE. rewrite !hexec_while. eapply while_same; eauto. eapply same_block; eauto.
  - intros G cs WC [IH1 IH2] S0 HP EN HH EE. rewrite !hexec_switch. apply IH2; auto.
  - intros G a b k1 k2 D1 D2 U1 U2 S0 HP EN HH EE. cbn [hexec]. subE D1 S1 X1 V1 K1. pose proof (envK_ext _ _ _ _ X1 EE) as EE1. clear HH EE.
    subE D2 S2 X2 V2 K2. split; [reflexivity|]. exists S2. split; [eapply ext_trans; eauto|]. split; auto. split; [eapply sub_kv; eauto; eapply kv_ext; eauto|].
    exact (sub_kv _ _ _ _ U2 K2).
  - intros G x err o a args ty ks D1 D2 SG F L1 L2 S0 HP EN HH EE. cbn [hexec]. subE D1 S1 X1 V1 K1. pose proof (envK_ext _ _ _ _ X1 EE) as EE1. clear HH EE.
    subE D2 S2 X2 V2 K2. pose proof (envK_ext _ _ _ _ X2 EE1) as EE2. clear V1 EE1. destruct (evals_same _ _ _ F _ _ _ V2 EE2) as [E P]. rewrite <- E. clear E.
    destruct (hevals pl types h2 EN args) as [[vs H3]| | |]; cbn [hlift]; try (split; [reflexivity|exact I]). destruct (P _ _ eq_refl) as (S3 & X3 & V3 & K3). clear P.
    destruct (CALL S3 H3 ty ks h h1 vs V3) as [E P]; auto.
    { eapply goVal_ext; [|exact K1]. eapply ext_trans; eauto. }
    { exact (kv_ext _ _ KIn _ X3 K2). }
    rewrite <- E. clear E. destruct (call H3 h h1 vs) as [H4 r]. cbn [fst snd] in P. destruct r as [|v w| |]; try (split; [reflexivity|exact I]).
    destruct P as (S4 & X4 & V4 & K4 & K5). pose proof (envK_ext _ _ _ _ X4 (envK_ext _ _ _ _ X3 EE2)) as EE4. clear V2 EE2 V3.
    assert (PX : place G (LVar x) KIn) by (now constructor). subS PX v S5 X5 V5 E5.
    assert (PE : place G (LVar err) (KTy GError)) by (now constructor). assert (K6 : kv S5 (KTy GError) w) by exact (goVal_ext _ _ _ _ X5 K5). clear V4 EE4. subS PE w S6 X6 V6 E6.
    split; [reflexivity|]. exists S6. split; auto. repeat (first [eassumption | eapply ext_trans; [eassumption|]]).
  - intros G err o a args ty ks D1 D2 SG F S0 HP EN HH EE. cbn [hexec]. subE D1 S1 X1 V1 K1. pose proof (envK_ext _ _ _ _ X1 EE) as EE1. clear HH EE.
    subE D2 S2 X2 V2 K2. pose proof (envK_ext _ _ _ _ X2 EE1) as EE2. clear V1 EE1. destruct (evals_same _ _ _ F _ _ _ V2 EE2) as [E P]. rewrite <- E. clear E.
    destruct (hevals pl types h2 EN args) as [[vs H3]| | |]; cbn [hlift]; try (split; [reflexivity|exact I]). destruct (P _ _ eq_refl) as (S3 & X3 & V3 & K3). clear P.
    destruct (CALL S3 H3 ty ks h h1 vs V3) as [E P]; auto.
    { eapply goVal_ext; [|exact K1]. eapply ext_trans; eauto. }
    { exact (kv_ext _ _ KIn _ X3 K2). }
    rewrite <- E. clear E. destruct (call H3 h h1 vs) as [H4 r]. cbn [fst snd] in P. destruct r as [|v w| |]; try (split; [reflexivity|exact I]).
    destruct P as (S4 & X4 & V4 & K4 & K5). pose proof (envK_ext _ _ _ _ X4 (envK_ext _ _ _ _ X3 EE2)) as EE4. split; [reflexivity|]. exists S4.
    split; [repeat (first [eassumption | eapply ext_trans; [eassumption|]])|]. split; auto. constructor; auto.
  - intros G S0 HP EN HH EE. split; [reflexivity|]. exists S0. split; [apply ext_refl|]. auto.
  - intros G s b G1 G2 WS IH1 WB IH2 S0 HP EN HH EE. rewrite !hexecs_cons. destruct (IH1 S0 HP EN HH EE) as [E P]. rewrite <- E. destruct (ex s HP EN) as [[H1 e1] r].
    destruct r; try (split; [reflexivity|exact P]). destruct P as (S1 & X1 & V1 & E1). destruct (IH2 S1 H1 e1 V1 E1) as [E2 P2]. split; auto. eapply execPost_ext; eauto.
  - intros G. split; [|intros all S0 HP EN HH EE DF; cbn [hswPick]; auto]. intros S0 HP EN HH EE. split; [reflexivity|]. exists S0. split; [apply ext_refl|]. auto.
  - intros G c b k G' cs D WB IHB WC [IH1 IH2]. split.
    + intros. cbn [hswDefault]. auto.
    + intros all S0 HP EN HH EE DF. cbn [hswPick]. subE D S1 X1 V1 K1. pose proof (envK_ext _ _ _ _ X1 EE) as EE1. destruct h as [| | | | | | |[]]; try (split; [reflexivity|exact I]).
      * destruct (same_block _ _ _ WB IHB S1 h0 EN V1 EE1) as [E P]. split; auto. eapply execPost_ext; eauto.
      * destruct (IH2 all S1 h0 EN V1 EE1 DF) as [E P]. split; auto. eapply execPost_ext; eauto.
  - intros G b G' cs WB IHB WC [IH1 IH2]. split.
    + intros S0 HP EN HH EE. cbn [hswDefault]. eapply same_block; eauto.
    + intros all S0 HP EN HH EE DF. cbn [hswPick]. auto.
Qed.
End Kinds.
