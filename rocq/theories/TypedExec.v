(** Statements that respect the types of variables and fields keep every value
    within its type. *)
From Coq Require Import ZArith String List Bool Lia ZifyBool ZifyNat.
From Verif Require Import Base GoLang WireSpec PackageSpec WireProofs GenSim.
From Verif Require MemWord.
Import ListNotations.
Open Scope string_scope.
Open Scope list_scope.
Open Scope Z_scope.

(** Types with a zero value. *)
Fixpoint sized (g : gtype) : bool :=
  match g with
  | GUint b => 0 <=? b
  | GArray n h => (0 <=? n) && sized h
  | _ => true
  end.

(** What is known of a value: input, a number in a range, a value of a type, a
    struct (not nil), nil, nothing. *)
Inductive kind : Type :=
| KIn
| KNum (lo hi : Z)
| KTy (g : gtype)
| KObj (n : string)
| KNil
| KAny.
Definition kctx := list (string * kind).
Definition KI : kind := KNum (- two63) two63.
Definition ptrTo (k : kind) (n : string) : Prop := k = KTy (GPtr n) \/ k = KObj n.

Definition numOf (k : kind) : option (Z * Z) :=
  match k with
  | KNum lo hi => Some (lo, hi)
  | KTy (GUint b) => Some (0, 2 ^ b)
  | KTy GByte => Some (0, 256)
  | KTy GInt => Some (- two63, two63)
  | _ => None
  end.
Definition nilable (g : gtype) : bool := match g with GError | GPtr _ | GSlice _ => true | _ => false end.
Inductive sub : kind -> kind -> Prop :=
| sub_refl k : sub k k
| sub_nil_in : sub KNil KIn
| sub_nil g : nilable g = true -> sub KNil (KTy g)
| sub_num lo hi g lo' hi' : numOf (KTy g) = Some (lo', hi') -> lo' <= lo -> hi <= hi' -> sub (KNum lo hi) (KTy g).

Section Kinds.
Variable types : amap (list (string * gtype)).

(** A value of the Go type [g]. *)
Inductive ofType : gtype -> value -> Prop :=
| ot_uint b z : 0 <= z < 2 ^ b -> ofType (GUint b) (VInt z)
| ot_byte z : 0 <= z < 256 -> ofType GByte (VInt z)
| ot_int z : - two63 <= z < two63 -> ofType GInt (VInt z)
| ot_str b : all_bytes b -> ofType GString (VStr b)
| ot_noerr : ofType GError VNil
| ot_err m : ofType GError (VErr m)
| ot_nil n : ofType (GPtr n) VNil
| ot_ptr n ds fs : alookup n types = Some ds -> Forall2 (fun d f => fst d = fst f /\ ofType (snd d) (snd f)) ds fs -> ofType (GPtr n) (VStruct n fs)
| ot_none g : ofType (GSlice g) VNil
| ot_slice g l : Forall (ofType g) l -> ofType (GSlice g) (VList l)
| ot_array n g l : blen l = n -> Forall (ofType g) l -> ofType (GArray n g) (VList l).

Definition kv (k : kind) (v : value) : Prop :=
  match k with
  | KIn => v = VNil \/ exists b, v = VBytes b /\ goBytes b
  | KNum lo hi => exists z, v = VInt z /\ lo <= z < hi
  | KTy g => ofType g v
  | KObj n => ofType (GPtr n) v /\ v <> VNil
  | KNil => v = VNil
  | KAny => True
  end.
Definition envV (G : kctx) (e : env) : Prop := Forall2 (fun g x => fst g = fst x /\ kv (snd g) (snd x)) G e.

Lemma sub_kv : forall k k' v, sub k k' -> kv k v -> kv k' v.
Proof.
  intros k k' v S K. destruct S as [k| |g NG|lo hi g lo' hi' N L1 L2]; cbn in *; subst; auto.
  - destruct g; try discriminate; constructor.
  - destruct K as (z & -> & B). destruct g; try discriminate; cbn [numOf] in N; injection N as <- <-; constructor; (split; [eapply Z.le_trans; [eassumption|apply B]|eapply Z.lt_le_trans; [apply B|assumption]]).
Qed.
Lemma num_kv : forall k lo hi v, numOf k = Some (lo, hi) -> kv k v -> exists z, v = VInt z /\ lo <= z < hi.
Proof.
  intros k lo hi v N K. destruct k as [|a b|g| | |]; try discriminate; cbn in *.
  - injection N as <- <-. auto.
  - destruct g; try discriminate; injection N as <- <-; inversion K; subst; eauto.
Qed.
Lemma ptr_kv : forall k n v, ptrTo k n -> kv k v -> ofType (GPtr n) v.
Proof. intros k n v [-> | ->] K; cbn in K; tauto. Qed.
Lemma kv_ptr : forall k n fs, ptrTo k n -> ofType (GPtr n) (VStruct n fs) -> kv k (VStruct n fs).
Proof. intros k n fs [-> | ->] K; cbn; auto. split; auto. discriminate. Qed.
Lemma env_lookup : forall G e, envV G e -> forall x k, alookup x G = Some k -> exists v, alookup x e = Some v /\ kv k v.
Proof.
  intros G e F. induction F as [|[y k] [y' v] G e [N K] F IH]; intros x k' L; [discriminate|]. cbn [fst snd] in *. subst y'. cbn [alookup] in *.
  destruct (String.eqb x y); [injection L as <-; eauto|auto].
Qed.
Lemma env_assign : forall G e, envV G e -> forall x k v, alookup x G = Some k -> kv k v -> envV G (assign x v e).
Proof.
  intros G e F. induction F as [|[y k] [y' w] G e [N K] F IH]; intros x k' v L KV; [discriminate|]. cbn [fst snd] in *. subst y'. cbn [alookup assign] in *.
  destruct (String.eqb x y); [injection L as <-|]; constructor; auto. eapply IH; eauto.
Qed.
Lemma env_length : forall G e, envV G e -> List.length e = List.length G.
Proof. intros G e F. induction F; cbn; congruence. Qed.
Lemma env_leave : forall d G e1 e0, envV (d ++ G) e1 -> List.length e0 = List.length G -> envV G (leave e0 e1).
Proof.
  intros d G e1 e0 F L. pose proof (env_length _ _ F) as L1. rewrite app_length in L1. unfold leave. rewrite L, L1.
  replace (List.length d + List.length G - List.length G)%nat with (List.length d) by lia. clear L L1.
  revert e1 F. induction d as [|x d IH]; intros e1 F; cbn [app List.length skipn] in *; auto. inversion F; subst. auto.
Qed.

Lemma fields_lookup : forall ds fs, Forall2 (fun d f => fst d = fst f /\ ofType (snd d) (snd f)) ds fs ->
  forall f g, alookup f ds = Some g -> exists v, alookup f fs = Some v /\ ofType g v.
Proof.
  intros ds fs F. induction F as [|[y k] [y' v] ds fs [N K] F IH]; intros x k' L; [discriminate|]. cbn [fst snd] in *. subst y'. cbn [alookup] in *.
  destruct (String.eqb x y); [injection L as <-; eauto|auto].
Qed.
Lemma fields_assign : forall ds fs, Forall2 (fun d f => fst d = fst f /\ ofType (snd d) (snd f)) ds fs ->
  forall f g v, alookup f ds = Some g -> ofType g v -> Forall2 (fun d f => fst d = fst f /\ ofType (snd d) (snd f)) ds (assign f v fs).
Proof.
  intros ds fs F. induction F as [|[y k] [y' w] ds fs [N K] F IH]; intros x k' v L KV; [discriminate|]. cbn [fst snd] in *. subst y'. cbn [alookup assign] in *.
  destruct (String.eqb x y); [injection L as <-|]; constructor; auto. eapply IH; eauto.
Qed.
Lemma zero_typed : forall g, sized g = true -> ofType g (zero g).
Proof.
  induction g; cbn [sized zero]; intros Z.
  - constructor. split; [lia|]. apply Z.pow_pos_nonneg; lia.
  - constructor. lia.
  - constructor. unfold two63. lia.
  - constructor. constructor.
  - constructor.
  - constructor.
  - constructor; [unfold blen; rewrite repeat_length; lia|].
    apply Forall_forall. intros v I. apply repeat_spec in I as ->. apply IHg. now apply andb_true_iff in Z.
  - constructor.
Qed.
Lemma zeros_typed : forall ds, Forall (fun d => sized (snd d) = true) ds -> Forall2 (fun d f => fst d = fst f /\ ofType (snd d) (snd f)) ds (zeros ds).
Proof. intros ds F. unfold zeros. induction F; cbn [map]; constructor; auto. split; auto. now apply zero_typed. Qed.

(* ---------- expressions ---------- *)

Section Context.
Variable G : kctx.
Inductive hasV : expr -> kind -> Prop :=
| v_int z : hasV (EInt z) (KNum z (z + 1))
| v_var x k : alookup x G = Some k -> hasV (EVar x) k
| v_sel a k n ds f g : hasV a k -> ptrTo k n -> alookup n types = Some ds -> alookup f ds = Some g -> hasV (ESel a f) (KTy g)
| v_idxIn a i : hasV a KIn -> hasV (EIdx a i) (KNum 0 256)
| v_idxS a i g : hasV a (KTy (GSlice g)) -> hasV (EIdx a i) (KTy g)
| v_idxA a i n g : hasV a (KTy (GArray n g)) -> hasV (EIdx a i) (KTy g)
| v_len a : hasV a KIn -> hasV (ELen a) (KNum 0 two63)
| v_toInt a : hasV (EToInt a) KI
| v_arith o a b : o = BAdd \/ o = BSub -> hasV (EBin o a b) KI
| v_any a : hasV a KAny
| v_paren a k : hasV a k -> hasV (EParen a) k
| v_from a i : hasV a KIn -> hasV (EFrom a i) KIn
| v_to a i : hasV a KIn -> hasV (ETo a i) KIn
| v_be bits a : hasV a KIn -> hasV (EBigEndian bits a) (KNum 0 (2 ^ bits))
| v_index a z : hasV a KIn -> hasV (EIndexByte a z) KI
| v_str a : hasV a KIn -> hasV (EStringOf a) (KTy GString)
| v_empty : hasV EEmptyBytes KIn
| v_make g n : sized g = true -> hasV (EMake g n) (KTy (GSlice g))
| v_new n ds : alookup n types = Some ds -> Forall (fun d => sized (snd d) = true) ds -> hasV (ENew n) (KTy (GPtr n))
| v_append a b g k : hasV a (KTy (GSlice g)) -> hasV b k -> sub k (KTy g) -> hasV (EAppend a b) (KTy (GSlice g))
| v_nil : hasV ENil KNil
| v_err m : hasV (EError m) (KTy GError).

(** Places that can be assigned to. *)
Inductive place : lval -> kind -> Prop :=
| p_var x k : alookup x G = Some k -> place (LVar x) k
| p_field l f k n ds g : place l k -> ptrTo k n -> alookup n types = Some ds -> alookup f ds = Some g -> place (LField l f) (KTy g)
| p_idxS l i g : place l (KTy (GSlice g)) -> place (LIdx l i) (KTy g)
| p_idxA l i n g : place l (KTy (GArray n g)) -> place (LIdx l i) (KTy g).
Lemma place_has : forall l k, place l k -> hasV (lexpr l) k.
Proof.
  intros l k P. induction P; cbn [lexpr].
  - now apply v_var.
  - eapply v_sel; eauto.
  - now apply v_idxS.
  - eapply v_idxA; eauto.
Qed.
End Context.

Lemma nth_In : forall A (l : list A) z v, nthZ l z = Some v -> In v l.
Proof. intros A l z v H. unfold nthZ in H. destruct (z <? 0); [discriminate|]. eapply nth_error_In; eauto. Qed.
Lemma blen_skipn : forall A n (l : list A), blen (skipn n l) <= blen l.
Proof. intros. unfold blen. rewrite skipn_length. lia. Qed.
Lemma blen_firstn : forall A n (l : list A), blen (firstn n l) <= blen l.
Proof. intros. unfold blen. rewrite firstn_length. lia. Qed.
Lemma bytes_skipn : forall n b, goBytes b -> goBytes (skipn n b).
Proof.
  intros n b [A L]. split; [|pose proof (blen_skipn _ n b); lia]. unfold all_bytes in *. rewrite Forall_forall in *. intros x I. apply A. rewrite <- (firstn_skipn n b). apply in_or_app. auto.
Qed.
Lemma bytes_firstn : forall n b, goBytes b -> goBytes (firstn n b).
Proof.
  intros n b [A L]. split; [|pose proof (blen_firstn _ n b); lia]. unfold all_bytes in *. rewrite Forall_forall in *. intros x I. apply A. rewrite <- (firstn_skipn n b). apply in_or_app. auto.
Qed.

Lemma eval_typed : forall G x k, hasV G x k -> forall e v, envV G e -> eval types e x = Ok v -> kv k v.
Proof.
  intros G x k D. induction D; intros e v EE EV; cbn [eval] in EV.
  - injection EV as <-. cbn. eexists. split; [reflexivity|lia].
  - destruct (env_lookup _ _ EE _ _ H) as (w & L & K). rewrite L in EV. now injection EV as <-.
  - destruct (eval types e a) as [w| | |] eqn:EA; try discriminate. cbn [bind] in EV. pose proof (ptr_kv _ _ _ H (IHD e w EE EA)) as K. inversion K as [| | | | | | |? ds' fs L F| | |]; subst; [discriminate|].
    rewrite H0 in L. injection L as <-. destruct (fields_lookup _ _ F _ _ H1) as (w & L & O). rewrite L in EV. injection EV as <-. exact O.
  - destruct (eval types e a) as [w| | |] eqn:EA; try discriminate. cbn [bind] in EV. destruct (eval types e i) as [j| | |]; try discriminate. cbn [bind] in EV.
    destruct (IHD e w EE EA) as [-> |(b & -> & B & _)]; destruct j; try discriminate. destruct (nthZ b z) as [q|] eqn:N; [|discriminate]. injection EV as <-. apply nth_In in N.
    unfold all_bytes in B. rewrite Forall_forall in B. specialize (B _ N). exists q. split; [reflexivity|exact B].
  - destruct (eval types e a) as [w| | |] eqn:EA; try discriminate. cbn [bind] in EV. destruct (eval types e i) as [j| | |]; try discriminate. cbn [bind] in EV.
    pose proof (IHD e w EE EA) as K. inversion K as [| | | | | | | | |? l F|]; subst; destruct j; try discriminate. destruct (nthZ l z) as [q|] eqn:N; [|discriminate]. injection EV as <-. apply nth_In in N.
    rewrite Forall_forall in F. exact (F _ N).
  - destruct (eval types e a) as [w| | |] eqn:EA; try discriminate. cbn [bind] in EV. destruct (eval types e i) as [j| | |]; try discriminate. cbn [bind] in EV.
    pose proof (IHD e w EE EA) as K. inversion K as [| | | | | | | | | |? ? l LN F]; subst; destruct j; try discriminate. destruct (nthZ l z) as [q|] eqn:N; [|discriminate]. injection EV as <-. apply nth_In in N.
    rewrite Forall_forall in F. exact (F _ N).
  - destruct (eval types e a) as [w| | |] eqn:EA; try discriminate. cbn [bind] in EV. destruct (IHD e w EE EA) as [-> |(b & -> & _ & B)]; [discriminate|]. injection EV as <-.
    eexists. split; [reflexivity|]. unfold blen in *. lia.
  - destruct (eval types e a) as [w| | |]; try discriminate. cbn [bind] in EV. destruct w; try discriminate. injection EV as <-. eexists. split; [reflexivity|]. apply s64_range.
  - assert (X : exists w1 w2, eval types e a = Ok w1 /\ eval types e b = Ok w2 /\ (match w1, w2 with VInt p, VInt q => Ok (evalBin o p q) | _, _ => stuck end) = Ok v).
    { destruct H as [-> | ->]; cbn [eval] in EV; (destruct (eval types e a) as [w1| | |]; try discriminate; cbn [bind] in EV; destruct (eval types e b) as [w2| | |]; try discriminate; cbn [bind] in EV; eauto). }
    destruct X as (w1 & w2 & _ & _ & X). destruct w1; try discriminate. destruct w2; try discriminate. injection X as <-.
    destruct H as [-> | ->]; cbn [evalBin]; (eexists; split; [reflexivity|apply s64_range]).
  - exact I.
  - eauto.
  - destruct (eval types e a) as [w| | |] eqn:EA; try discriminate. cbn [bind] in EV. destruct (eval types e i) as [j| | |]; try discriminate. cbn [bind] in EV.
    destruct (IHD e w EE EA) as [-> |(b & -> & B)]; [discriminate|]. destruct j; try discriminate. destruct ((z <? 0) || (blen b <? z)); [discriminate|]. injection EV as <-.
    right. eexists. split; [reflexivity|]. now apply bytes_skipn.
  - destruct (eval types e a) as [w| | |] eqn:EA; try discriminate. cbn [bind] in EV. destruct (eval types e i) as [j| | |]; try discriminate. cbn [bind] in EV.
    destruct (IHD e w EE EA) as [-> |(b & -> & B)]; [discriminate|]. destruct j; try discriminate. destruct ((z <? 0) || (blen b <? z)); [discriminate|]. injection EV as <-.
    right. eexists. split; [reflexivity|]. now apply bytes_firstn.
  - destruct (eval types e a) as [w| | |] eqn:EA; try discriminate. cbn [bind] in EV. destruct (IHD e w EE EA) as [-> |(b & -> & B)]; [discriminate|].
    destruct ((bits =? 16) || (bits =? 32) || (bits =? 64)) eqn:EB; [|discriminate]. destruct (blen b <? bits / 8) eqn:LB; [discriminate|]. injection EV as <-.
    eexists. split; [reflexivity|]. destruct (bytes_firstn (Z.to_nat (bits / 8)) _ B) as [FB _]. pose proof (MemWord.be_range _ FB) as R.
    assert (E8 : 8 * (bits / 8) = bits) by (repeat rewrite orb_true_iff in EB; destruct EB as [[EB|EB]|EB]; apply Z.eqb_eq in EB as ->; reflexivity).
    assert (EL : blen (firstn (Z.to_nat (bits / 8)) b) = bits / 8) by (unfold blen in *; rewrite firstn_length; lia).
    rewrite EL, E8 in R. exact R.
  - destruct (eval types e a) as [w| | |] eqn:EA; try discriminate. cbn [bind] in EV. destruct (IHD e w EE EA) as [-> |(b & -> & _ & B)]; [discriminate|]. injection EV as <-.
    eexists. split; [reflexivity|]. pose proof (MemWord.indexByte_range b z). unfold blen, two63 in *. lia.
  - destruct (eval types e a) as [w| | |] eqn:EA; try discriminate. cbn [bind] in EV. destruct (IHD e w EE EA) as [-> |(b & -> & B & _)]; [discriminate|]. injection EV as <-. now constructor.
  - injection EV as <-. right. eexists. split; [reflexivity|]. split; [constructor|reflexivity].
  - destruct (eval types e n) as [w| | |]; try discriminate. cbn [bind] in EV. destruct w; try discriminate. destruct ((z <? 0) || (maxAlloc <? z * gsize g)); [discriminate|]. injection EV as <-.
    constructor. apply Forall_forall. intros v I. apply repeat_spec in I as ->. now apply zero_typed.
  - rewrite H in EV. injection EV as <-. econstructor; eauto. now apply zeros_typed.
  - destruct (eval types e a) as [w| | |] eqn:EA; try discriminate. cbn [bind] in EV. destruct (eval types e b) as [w2| | |] eqn:EB; try discriminate. cbn [bind] in EV.
    pose proof (sub_kv _ _ _ H (IHD2 e w2 EE EB)) as K2. pose proof (IHD1 e w EE EA) as K. inversion K as [| | | | | | | | |? l F|]; subst; injection EV as <-; constructor.
    + constructor; auto.
    + apply Forall_app. split; auto.
  - now injection EV as <-.
  - injection EV as <-. constructor.
Qed.

Lemma updN_Forall : forall (P : value -> Prop) l i v, Forall P l -> P v -> Forall P (updN l i v).
Proof. intros P l i v F V. revert i. induction F; intros [|i]; cbn; constructor; auto. Qed.
Lemma store_typed : forall G l k, place G l k -> forall e v e1, envV G e -> kv k v -> store types e l v = Ok e1 -> envV G e1.
Proof.
  intros G l k P. induction P; intros e v e1 EE KV ST; cbn [store] in ST.
  - destruct (alookup x e); [|discriminate]. injection ST as <-. eapply env_assign; eauto.
  - destruct (eval types e (lexpr l)) as [w| | |] eqn:EA; try discriminate. cbn [bind] in ST. pose proof (ptr_kv _ _ _ H (eval_typed _ _ _ (place_has _ _ _ P) e w EE EA)) as K.
    inversion K as [| | | | | | |? ds' fs L F| | |]; subst; [discriminate|]. rewrite H0 in L. injection L as <-. destruct (alookup f fs); [|discriminate].
    eapply IHP; [exact EE| |exact ST]. apply kv_ptr with (n := n); auto. econstructor; [exact H0|]. eapply fields_assign; eauto.
  - destruct (eval types e (lexpr l)) as [w| | |] eqn:EA; try discriminate. cbn [bind] in ST. pose proof (eval_typed _ _ _ (place_has _ _ _ P) e w EE EA) as K.
    destruct (eval types e i) as [j| | |]; try discriminate. cbn [bind] in ST. inversion K as [| | | | | | | | |? xs F|]; subst; destruct j; try discriminate.
    destruct (nthZ xs z); [|discriminate]. eapply IHP; [exact EE| |exact ST]. constructor. now apply updN_Forall.
  - destruct (eval types e (lexpr l)) as [w| | |] eqn:EA; try discriminate. cbn [bind] in ST. pose proof (eval_typed _ _ _ (place_has _ _ _ P) e w EE EA) as K.
    destruct (eval types e i) as [j| | |]; try discriminate. cbn [bind] in ST. inversion K as [| | | | | | | | | |? ? xs LN F]; subst; destruct j; try discriminate.
    destruct (nthZ xs z); [|discriminate]. eapply IHP; [exact EE| |exact ST]. constructor; [|now apply updN_Forall]. unfold blen. now rewrite updN_len.
Qed.

(* ---------- statements ---------- *)

(** The kinds of the parameters of the Parse method of a type. *)
Variable sigs : string -> list kind -> Prop.
(** What a function returns besides an error. *)
Variable rk : kind.

Inductive wS : kctx -> stmt -> kctx -> Prop :=
| wDecl G x a k : hasV G a k -> wS G (SDecl x a) ((x, k) :: G)
| wVar G x g : sized g = true -> wS G (SVar x g) ((x, KTy g) :: G)
| wSet G l a k k' : hasV G a k -> place G l k' -> sub k k' -> wS G (SAssign l a) G
| wSet2 G l1 l2 a b k1 k1' k2 k2' : hasV G a k1 -> hasV G b k2 -> place G l1 k1' -> place G l2 k2' -> sub k1 k1' -> sub k2 k2' -> wS G (SAssign2 l1 l2 a b) G
| wIf G c b G' : wB G b G' -> wS G (SIf c b) G
| wBlock G b G' : wB G b G' -> wS G (SBlock b) G
| wFor G x bound b G' : wB ((x, KI) :: G) b G' -> wS G (SForLt x bound b) G
| wWhile G c b G' : wB G b G' -> wS G (SWhile c b) G
| wSwitch G cs : wC G cs -> wS G (SSwitch cs) G
| wReturn G a b k1 k2 : hasV G a k1 -> hasV G b k2 -> sub k1 rk -> sub k2 (KTy GError) -> wS G (SReturn a b) G
| wParse G x err o a args n ks : place G o (KTy (GPtr n)) -> hasV G a KIn -> sigs n ks -> Forall2 (hasV G) args ks ->
    alookup x G = Some KIn -> alookup err G = Some (KTy GError) -> wS G (SParse x err o a args) G
| wParseDecl G err o a args n ks : place G o (KTy (GPtr n)) -> hasV G a KIn -> sigs n ks -> Forall2 (hasV G) args ks ->
    wS G (SParseDecl err o a args) ((err, KTy GError) :: G)
with wB : kctx -> list stmt -> kctx -> Prop :=
| wNil G : wB G [] G
| wCons G s b G1 G2 : wS G s G1 -> wB G1 b G2 -> wB G (s :: b) G2
with wC : kctx -> list (option expr * list stmt) -> Prop :=
| wCnil G : wC G []
| wCsome G c b G' cs : wB G b G' -> wC G cs -> wC G ((Some c, b) :: cs)
| wCnone G b G' cs : wB G b G' -> wC G cs -> wC G ((None, b) :: cs).
Scheme wS_mut := Minimality for wS Sort Prop with wB_mut := Minimality for wB Sort Prop with wC_mut := Minimality for wC Sort Prop.
Combined Scheme w_ind from wS_mut, wB_mut, wC_mut.

Lemma w_grows : (forall G s G', wS G s G' -> exists d, G' = d ++ G) /\ (forall G b G', wB G b G' -> exists d, G' = d ++ G) /\ (forall G cs, wC G cs -> True).
Proof.
  apply w_ind; intros; auto; try (exists []; reflexivity); try (eexists [_]; reflexivity).
  destruct H0 as [d ->], H2 as [d' ->]. exists (d' ++ d). now rewrite app_assoc.
Qed.
Definition wS_grows := proj1 w_grows.
Definition wB_grows := proj1 (proj2 w_grows).

Variable call : callfun.
Variable n : nat.
Definition retPost (k : kind) (r : sres) : Prop :=
  match r with SRet v w => kv k v /\ ofType GError w | _ => True end.
Hypothesis CALL : forall ty ks recv d vs, ofType (GPtr ty) recv -> kv KIn d -> sigs ty ks -> Forall2 kv ks vs ->
  ofType (GPtr ty) (fst (call recv d vs)) /\ retPost KIn (snd (call recv d vs)).
Notation exec := (exec types call n).
Notation execs := (execs types call n).
Notation block := (block types call n).

(** Variables keep their kinds however a statement ends; [G'] are those in scope if
    it ends normally. *)
Definition post (G G' : kctx) (x : env * sres) : Prop :=
  match snd x with SNext => envV G' (fst x) | _ => (exists d, envV (d ++ G) (fst x)) /\ retPost rk (snd x) end.
Lemma post_here : forall G G' e m, envV G e -> post G G' (e, SPanic m).
Proof. intros. unfold post. cbn. split; auto. now exists []. Qed.
Lemma post_fuel : forall G G' e, envV G e -> post G G' (e, SFuel).
Proof. intros. unfold post. cbn. split; auto. now exists []. Qed.
Lemma post_lift : forall A G G' e (x : outcome A) k, envV G e -> (forall a, x = Ok a -> post G G' (k a)) -> post G G' (lift e x k).
Proof. intros A G G' e x k EE K. destruct x; cbn [lift]; [now apply K| | |]; auto using post_here, post_fuel. Qed.
Lemma post_up : forall d G G' x, post (d ++ G) G' x -> post G G' x.
Proof. intros d G G' [e r] P. unfold post in *. cbn [fst snd] in *. destruct r; auto; destruct P as [[d' F] R]; split; auto; exists (d' ++ d); now rewrite <- app_assoc. Qed.

Lemma block_typed : forall G b G', wB G b G' -> (forall e, envV G e -> post G G' (execs b e)) -> forall e, envV G e -> post G G (block b e).
Proof.
  intros G b G' W K e EE. unfold block, GenSim.block. specialize (K e EE). destruct (execs b e) as [e1 r]. unfold post in *. cbn [fst snd] in *. pose proof (env_length _ _ EE) as L.
  destruct (wB_grows _ _ _ W) as [d ->]. destruct r.
  - eapply env_leave; eauto.
  - destruct K as [[d' K] R]. split; auto. exists []. eapply env_leave; eauto.
  - destruct K as [[d' K] R]. split; auto. exists []. eapply env_leave; eauto.
  - destruct K as [[d' K] R]. split; auto. exists []. eapply env_leave; eauto.
Qed.
Lemma args_typed : forall G args ks, Forall2 (hasV G) args ks -> forall e vs, envV G e -> mapM (eval types e) args = Ok vs -> Forall2 kv ks vs.
Proof.
  intros G args ks F. induction F as [|a k args ks D F IH]; intros e vs EE M; cbn [mapM] in M.
  - injection M as <-. constructor.
  - destruct (eval types e a) as [v| | |] eqn:EA; try discriminate. cbn [bind] in M. destruct (mapM (eval types e) args) as [ws| | |] eqn:EM; try discriminate. injection M as <-.
    constructor; eauto. eapply eval_typed; eauto.
Qed.
Lemma forLoop_typed : forall G x bound b, (forall e, envV ((x, KI) :: G) e -> post ((x, KI) :: G) ((x, KI) :: G) (block b e)) ->
  forall m e, envV ((x, KI) :: G) e -> post ((x, KI) :: G) ((x, KI) :: G) (forLoop types call n x bound b m e).
Proof.
  intros G x bound b K. induction m as [|m IH]; intros e EE; cbn [forLoop]; (apply post_lift; auto; intros v _; destruct v as [| | | | | | |[]]; try (now apply post_here); [|unfold post; exact EE]).
  { now apply post_fuel. }
  pose proof (K e EE) as P. destruct (block b e) as [e1 r]. destruct r; try exact P. unfold post in P. cbn [fst snd] in P. apply post_lift; auto. intros w EW.
  apply IH. eapply env_assign; [exact P|cbn [alookup]; now rewrite String.eqb_refl|]. eapply (eval_typed ((x, KI) :: G)); [eapply (v_arith _ BAdd); now left|exact P|exact EW].
Qed.
Lemma whileLoop_typed : forall G c b, (forall e, envV G e -> post G G (block b e)) ->
  forall m e, envV G e -> post G G (whileLoop types call n c b m e).
Proof.
  intros G c b K. induction m as [|m IH]; intros e EE; cbn [whileLoop]; (apply post_lift; auto; intros v _; destruct v as [| | | | | | |[]]; try (now apply post_here); [|unfold post; exact EE]).
  { now apply post_fuel. }
  pose proof (K e EE) as P. destruct (block b e) as [e1 r]. destruct r; try exact P. apply IH. exact P.
Qed.

Lemma exec_typed : (forall G s G', wS G s G' -> forall e, envV G e -> post G G' (exec s e)) /\
  (forall G b G', wB G b G' -> forall e, envV G e -> post G G' (execs b e)) /\
  (forall G cs, wC G cs -> forall e, envV G e -> post G G (swDefault types call n e cs) /\
     forall all, post G G (swDefault types call n e all) -> post G G (swPick types call n e all cs)).
Proof.
  apply w_ind.
  - intros G x a k D e EE. cbn [GoLang.exec]. apply post_lift; auto. intros v EV. unfold post. cbn [fst snd]. constructor; auto. split; auto. cbn [fst snd]. eapply eval_typed; eauto.
  - intros G x g SZ e EE. cbn [GoLang.exec]. unfold post. cbn [fst snd]. constructor; auto. split; auto. now apply zero_typed.
  - intros G l a k k' D PL U e EE. cbn [GoLang.exec]. apply post_lift; auto. intros v EV. apply post_lift; auto. intros e1 ES. unfold post. cbn [fst snd].
    eapply store_typed; [exact PL|exact EE|exact (sub_kv _ _ _ U (eval_typed _ _ _ D _ _ EE EV))|exact ES].
  - intros G l1 l2 a b k1 k1' k2 k2' D1 D2 P1 P2 U1 U2 e EE. cbn [GoLang.exec]. apply post_lift; auto. intros v EV. apply post_lift; auto. intros w EW.
    apply post_lift; auto. intros e1 ES. assert (E1 : envV G e1) by (eapply store_typed; [exact P1|exact EE|exact (sub_kv _ _ _ U1 (eval_typed _ _ _ D1 _ _ EE EV))|exact ES]).
    apply post_lift; auto. intros e2 ES2. unfold post. cbn [fst snd]. eapply store_typed; [exact P2|exact E1|exact (sub_kv _ _ _ U2 (eval_typed _ _ _ D2 _ _ EE EW))|exact ES2].
  - intros G c b G' W IH e EE. rewrite exec_if. apply post_lift; auto. intros v EV. destruct v as [| | | | | | |[]]; try (now apply post_here); [|exact EE]. eapply block_typed; eauto.
  - intros G b G' W IH e EE. rewrite exec_block. eapply block_typed; eauto.
  - intros G x bound b G' W IH e EE. rewrite exec_for.
    assert (P : post ((x, KI) :: G) ((x, KI) :: G) (forLoop types call n x bound b n ((x, VInt 0) :: e))).
    { apply forLoop_typed; [intros; eapply block_typed; eauto|]. constructor; auto. split; auto. cbn. exists 0. split; auto. unfold two63. lia. }
    destruct (forLoop types call n x bound b n ((x, VInt 0) :: e)) as [e1 r]. unfold post in *. cbn [fst snd] in *. pose proof (env_length _ _ EE) as L. destruct r.
    + apply (env_leave [(x, KI)]); auto.
    + destruct P as [[d P] R]. split; auto. exists []. apply (env_leave (d ++ [(x, KI)])); auto. now rewrite <- app_assoc.
    + destruct P as [[d P] R]. split; auto. exists []. apply (env_leave (d ++ [(x, KI)])); auto. now rewrite <- app_assoc.
    + destruct P as [[d P] R]. split; auto. exists []. apply (env_leave (d ++ [(x, KI)])); auto. now rewrite <- app_assoc.
  - intros G c b G' W IH e EE. rewrite exec_while. apply whileLoop_typed; [|exact EE]. intros; eapply block_typed; eauto.
  - intros G cs W IH e EE. rewrite exec_switch. destruct (IH e EE) as [D P]. now apply P.
  - intros G a b k1 k2 D1 D2 U1 U2 e EE. cbn [GoLang.exec]. apply post_lift; auto. intros v EV. apply post_lift; auto. intros w EW. unfold post. cbn [fst snd].
    split; [now exists []|]. split; [exact (sub_kv _ _ _ U1 (eval_typed _ _ _ D1 _ _ EE EV))|]. exact (sub_kv _ _ _ U2 (eval_typed _ _ _ D2 _ _ EE EW)).
  - intros G x err o a args ty ks PO DA SG F L1 L2 e EE. cbn [GoLang.exec]. apply post_lift; auto. intros recv ER. apply post_lift; auto. intros d ED. apply post_lift; auto. intros vs EM.
    destruct (CALL ty ks recv d vs) as [C1 C2]; auto; [exact (eval_typed _ _ _ (place_has _ _ _ PO) _ _ EE ER)|exact (eval_typed _ _ _ DA _ _ EE ED)|eapply args_typed; eauto|].
    destruct (call recv d vs) as [recv' r]. cbn [fst snd] in *. destruct r as [|v w| |]; try (now apply post_here); [|now apply post_fuel]. destruct C2 as [C2 C3].
    apply post_lift; auto. intros e1 E1. assert (EE1 : envV G e1) by (eapply store_typed; eauto). apply post_lift; auto. intros e2 E2.
    assert (EE2 : envV G e2) by (eapply (store_typed G (LVar x) KIn); [now constructor|exact EE1|exact C2|exact E2]). apply post_lift; auto. intros e3 E3.
    unfold post. cbn [fst snd]. eapply (store_typed G (LVar err) (KTy GError)); [now constructor|exact EE2|exact C3|exact E3].
  - intros G err o a args ty ks PO DA SG F e EE. cbn [GoLang.exec]. apply post_lift; auto. intros recv ER. apply post_lift; auto. intros d ED. apply post_lift; auto. intros vs EM.
    destruct (CALL ty ks recv d vs) as [C1 C2]; auto; [exact (eval_typed _ _ _ (place_has _ _ _ PO) _ _ EE ER)|exact (eval_typed _ _ _ DA _ _ EE ED)|eapply args_typed; eauto|].
    destruct (call recv d vs) as [recv' r]. cbn [fst snd] in *. destruct r as [|v w| |]; try (now apply post_here); [|now apply post_fuel]. destruct C2 as [C2 C3].
    apply post_lift; auto. intros e1 E1. unfold post. cbn [fst snd]. constructor; [split; auto|]. eapply store_typed; eauto.
  - intros G e EE. exact EE.
  - intros G s b G1 G2 W1 IH1 W2 IH2 e EE. rewrite execs_cons. specialize (IH1 e EE). destruct (exec s e) as [e1 r]. destruct (wS_grows _ _ _ W1) as [d ->]. destruct r; try exact IH1.
    eapply post_up. apply IH2. exact IH1.
  - intros G e EE. split; [exact EE|]. intros all P. exact P.
  - intros G c b G' cs WB IHB WC IHC e EE. destruct (IHC e EE) as [D P]. split; [exact D|]. intros all DA. cbn [swPick]. apply post_lift; auto. intros v EV.
    destruct v as [| | | | | | |[]]; try (now apply post_here); [eapply block_typed; eauto|]. now apply P.
  - intros G b G' cs WB IHB WC IHC e EE. destruct (IHC e EE) as [D P]. split; [|intros all DA; exact (P all DA)]. cbn [swDefault]. eapply block_typed; eauto.
Qed.
End Kinds.
