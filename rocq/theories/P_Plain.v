(** Property C106: structs of a fixed size. *)
From Coq Require Import ZArith String List Bool Lia ZifyBool ZifyNat.
From Verif Require Import Base Ast IntervalsModel InspectModel InspectSpec InspectProofs GoLang GenModel GenDecode GenCheck GenSim GenSimBody GenSimProg GenMono WireSpec WireProofs WireComplete WireFacts GenTerm FwdProofs
  PackageSpec PackageProofs PackageFacts PackageMore GenExamples GenWitness AltSpec P_Alt ModProofs PlainSpec.
Import ListNotations.
Open Scope string_scope.
Open Scope list_scope.
Open Scope Z_scope.

Scheme plain_ind_t := Induction for plain Sort Prop
with plain_ind_ms := Induction for plains Sort Prop.
Combined Scheme plain_mut from plain_ind_t, plain_ind_ms.

(** [o] takes the first [k] bytes of [c], and says so if there are fewer. *)
Definition takes {A} (k : Z) (c : bytes) (o : outcome (A * bytes)) : Prop :=
  if blen c <? k then o = Err "data too short" else exists a, o = Ok (a, skipn (Z.to_nat k) c).
Lemma skipn_twice : forall A a b (l : list A), skipn b (skipn a l) = skipn (a + b) l.
Proof. intros A. induction a as [|a IH]; intros b l; [reflexivity|]. destruct l; [now rewrite !skipn_nil|]. apply IH. Qed.
Lemma takes_ok : forall A (a : A) c, takes 0 c (Ok (a, c)).
Proof. intros A a c. unfold takes. replace (blen c <? 0) with false by (unfold blen; lia). exists a. reflexivity. Qed.
Lemma takes_bind : forall A B (f : outcome (A * bytes)) (g : A -> bytes -> outcome (B * bytes)) k l c, 0 <= k -> 0 <= l -> takes k c f ->
  (forall a, k <= blen c -> takes l (skipn (Z.to_nat k) c) (g a (skipn (Z.to_nat k) c))) -> takes (k + l) c ('(a, c1) <- f ;; g a c1).
Proof.
  intros A B f g k l c K L F G. unfold takes in *. destruct (blen c <? k) eqn:E.
  - subst f. replace (blen c <? k + l) with true by lia. reflexivity.
  - destruct F as [a ->]. cbn [bind]. specialize (G a ltac:(lia)). assert (Q : blen (skipn (Z.to_nat k) c) = blen c - k) by (unfold blen in *; rewrite skipn_length; lia). rewrite Q in G.
    destruct (blen c - k <? l) eqn:E2; [replace (blen c <? k + l) with true by lia; exact G|]. replace (blen c <? k + l) with false by lia. destruct G as [b G]. exists b. rewrite G.
    rewrite Z2Nat.inj_add by lia. now rewrite skipn_twice.
Qed.
Lemma takes_map : forall A B (f : outcome (A * bytes)) (h : A -> B) k c, takes k c f -> takes k c ('(a, c1) <- f ;; Ok (h a, c1)).
Proof. intros A B f h k c F. unfold takes in *. destruct (blen c <? k); [now subst f|]. destruct F as [a ->]. now exists (h a). Qed.

Section Plain.
Variable camel : string -> string.
Variable r : resolver.
Hypothesis CK : forall nm s, Struct r nm = Some s -> Extern s = false -> checkStruct camel r s = true.
Notation cv := (Constant r).
Notation pl := (plain cv (Struct r)).
Notation pls := (plains cv (Struct r)).
Lemma plain_pos : (forall t k, pl t k -> 0 <= k) /\ (forall ms k, pls ms k -> 0 <= k).
Proof. apply plain_mut; intros; try (apply Z.div_pos; lia); nia. Qed.
Definition has (cenv : amap value) (ctxs : list string) : Prop := forall x, In x ctxs -> exists v, alookup x cenv = Some v.
Lemma has_args : forall cenv cs, has cenv cs -> exists args, ctxArgs cenv cs = Ok args /\ List.length args = List.length cs.
Proof.
  unfold ctxArgs. intros cenv. induction cs as [|x cs IH]; intros H; cbn [mapM]; [exists []; split; reflexivity|]. destruct (H x (or_introl eq_refl)) as [v ->]. cbn [bind].
  destruct IH as (args & -> & L); [intros y I; apply H; now right|]. cbn [bind]. exists (v :: args). cbn [List.length]. split; [reflexivity|lia].
Qed.
Lemma has_combine : forall cs args, List.length args = List.length cs -> has (combine cs args) cs.
Proof.
  induction cs as [|x cs IH]; intros [|v args] L; try discriminate; intros y I; [destruct I|]. cbn [combine alookup]. destruct (String.eqb_spec y x) as [->|NE]; [eauto|]. destruct I as [->|I]; [contradiction|]. apply (IH args); auto.
Qed.

(** Beyond some bound, on calls and on iterations. *)
Definition Takes (t : type) (k : Z) : Prop := exists n0, forall m n ctxs kn cenv (dat : bytes) fs c, (n0 <= m)%nat -> (n0 <= n)%nat -> has cenv ctxs -> goBytes c -> checkType r ctxs kn t = true ->
  takes k c (decType camel r (decCall camel r m) n cenv (blen dat) fs t c).
Definition TakesBase (t : type) (k : Z) : Prop := exists n0, forall m ctxs cenv (dat : bytes) c, (n0 <= m)%nat -> has cenv ctxs -> goBytes c -> checkBase r ctxs t = true ->
  takes k c (decBase r (decCall camel r m) cenv (blen dat) t c).
Definition TakesAll (ms : list member) (k : Z) : Prop := exists n0, forall m n ctxs kn cenv (dat : bytes) fs c, (n0 <= m)%nat -> (n0 <= n)%nat -> has cenv ctxs -> goBytes c -> checkMembers r ctxs kn ms = true ->
  takes k c (decMembers camel r (decCall camel r m) n cenv (blen dat) ms fs c).

Lemma plain_int : forall sz o c, 0 <= sz -> (forall x, 0 <= x < 2 ^ sz -> allowed cv o x) -> goBytes c -> takes (sz / 8) c (decInt r sz o c).
Proof.
  intros sz o c N S G. rewrite (alt_int r sz o None c N) by (auto; intros x X; specialize (S x X); cbn [allowed]; tauto). unfold takes, decInt. destruct (blen c <? sz / 8); eauto.
Qed.
Lemma good_skip : forall c k, goBytes c -> goBytes (skipn k c).
Proof. intros c k G. eapply good_suffix; eauto. exists (firstn k c). now rewrite firstn_skipn. Qed.
Lemma plain_loop : forall dcall cenv d b k, 0 <= k -> (forall c, goBytes c -> takes k c (decBase r dcall cenv d b c)) ->
  forall m n c, 0 <= n -> (Z.to_nat n <= m)%nat -> goBytes c -> takes (n * k) c (decFor r dcall cenv d m b n c).
Proof.
  intros dcall cenv d b k K B. induction m as [|m IH]; intros n c N M G; cbn [decFor]; destruct (n <=? 0) eqn:E; try (replace (n * k) with 0 by nia; apply takes_ok); [lia|].
  replace (n * k) with (k + (n - 1) * k) by lia. apply takes_bind; [auto|nia|now apply B|]. intros v _. apply (takes_map _ _ _ (fun vs => v :: vs)). apply IH; [lia|lia|now apply good_skip].
Qed.
Lemma check_ctx : forall ctxs nm s, Struct r nm = Some s -> checkBase r ctxs (TStruct nm) = true -> forall x, In x (scontexts s) -> In x ctxs.
Proof.
  intros ctxs nm s E C x I. cbn in C. rewrite E in C. apply andb_true_iff in C as [_ C]. rewrite forallb_forall in C. specialize (C x I). unfold memb in C. apply existsb_exists in C as (z & Iz & Ez). apply String.eqb_eq in Ez. now subst z.
Qed.
Definition arr (t : type) : bool := match t with TFixed _ _ | TVar _ _ => true | _ => false end.
Lemma plain_takes : (forall t k, pl t k -> (arr t = false -> TakesBase t k) /\ Takes t k) /\ (forall ms k, pls ms k -> TakesAll ms k).
Proof.
  assert (LIFT : forall t k, arr t = false -> TakesBase t k -> (arr t = false -> TakesBase t k) /\ Takes t k).
  { intros t k A T. split; auto. destruct T as [n0 T]. exists n0. intros m n ctxs kn cenv dat fs c M N H G C. destruct t; try discriminate; cbn [decType checkType] in *; eapply T; eauto. }
  apply plain_mut.
  - intros sz o N S. apply LIFT; [reflexivity|]. exists O. intros m ctxs cenv dat c _ _ G _. now apply plain_int.
  - apply LIFT; [reflexivity|]. exists O. intros m ctxs cenv dat c _ _ G _. apply (plain_int 8 None c); auto; lia || (intros; exact I).
  - apply LIFT; [reflexivity|]. exists O. intros m ctxs cenv dat c _ _ G _. cbn [decBase]. apply takes_ok.
  - intros nm s k E X P [n0 IH]. apply LIFT; [reflexivity|]. exists (S n0). intros m ctxs cenv dat c M H G C. cbn [decBase]. destruct m as [|m]; [lia|].
    pose proof (CK nm s E X) as CS. destruct (structDecl_ok camel r s CS) as [ds D].
    destruct (has_args cenv (scontexts s)) as (args & A & L); [intros x I; apply H; eapply check_ctx; eauto|]. cbn [decCall]. rewrite E, D. cbn [bind]. rewrite A. cbn [bind].
    apply (takes_map _ _ _ (fun fs => VStruct (camel nm) fs)). eapply IH; eauto; try lia; [now apply has_combine|exact (checked_members camel r s CS)].
  - intros b i n k P [IB _] V N. split; [discriminate|]. destruct (arr b) eqn:AB.
    + exists O. intros m nn ctxs kn cenv dat fs c _ _ _ _ C. exfalso. cbn [checkType] in C. apply andb_true_iff in C as [C _]. destruct b; discriminate.
    + destruct (IB eq_refl) as [n0 B]. exists (Nat.max n0 (Z.to_nat n)). intros m nn ctxs kn cenv dat fs c M NN H G C. cbn [decType checkType] in *. apply andb_true_iff in C as [C _].
      apply integerOf_value in V. rewrite V. cbn [bind]. apply (takes_map _ _ _ (fun vs => VList vs)). apply plain_loop; auto; try lia; [now apply (proj1 plain_pos) in P|]. intros c0 G0. eapply B; eauto. lia.
  - exists O. intros m n ctxs kn cenv dat fs c _ _ _ _ _. cbn [decMembers]. apply takes_ok.
  - intros nm t k ms l P [_ [n1 T]] Q [n2 IH]. exists (Nat.max n1 n2). intros m n ctxs kn cenv dat fs c M N H G C. cbn [decMembers checkMembers] in *. apply andb_true_iff in C as [C1 C2].
    apply takes_bind; [now apply (proj1 plain_pos) in P|now apply (proj2 plain_pos) in Q| |].
    + cbn [decMember checkMember] in *. apply (takes_map _ _ _ (fun v => assign (camel nm) v fs)). eapply T; eauto; lia.
    + intros a _. eapply IH; eauto; try lia. now apply good_skip.
Qed.
End Plain.

(** C106.  A parser of a struct made of integers that may have any value accepts all data that is long
    enough, takes the bytes that the integers take, and answers all other data with "data too short". *)
Theorem C106_plain : forall camel os fs r p, package camel os fs r p ->
  forall s k, defines fs s -> plains (Constant r) (Struct r) (members_of s) k ->
  forall fs0 data args, goStruct camel r s fs0 -> goBytes data -> ctxValues camel r s args ->
  (forall msg rest, data = msg ++ rest -> blen msg = k -> exists fs1, parses camel p s fs0 data args fs1 rest) /\
  (blen data < k -> fails camel p s fs0 data args "data too short").
Proof.
  intros camel os fs r p PK s k DS P fs0 data args GS GB CV. assert (VC : validCall camel fs r s fs0 data args) by (constructor; auto).
  assert (CK : forall nm s, Struct r nm = Some s -> Extern s = false -> checkStruct camel r s = true) by (intros nm t E X; eapply (str_check camel os fs r p PK); eauto).
  destruct (proj2 (plain_takes camel r CK) _ _ P) as [n0 T].
  assert (C : checkStruct camel r s = true) by (eapply pk_check; eauto; now apply (defines_in fs)).
  assert (L : List.length args = List.length (scontexts s)) by (clear - CV; unfold ctxValues in CV; symmetry; induction CV; cbn [List.length]; auto).
  specialize (T n0 n0 (scontexts s) [] (contextsOf s args) data fs0 data (le_n _) (le_n _) (has_combine _ _ L) GB (checked_members camel r s C)). unfold takes in T. split.
  - intros msg rest E B. replace (blen data <? k) with false in T by (subst data; unfold blen in *; rewrite app_length; lia). destruct T as [fs1 T]. exists fs1.
    apply (parses_dec camel os fs r p PK _ _ _ _ VC). exists (S n0). cbn [decStruct]. rewrite T. do 2 f_equal. subst data. subst k. unfold blen. rewrite Nat2Z.id. rewrite skipn_app, skipn_all, Nat.sub_diag. reflexivity.
  - intros B. replace (blen data <? k) with true in T by lia. apply (fails_dec camel os fs r p PK _ _ _ _ VC). exists (S n0). exact T.
Qed.
Print Assumptions C106_plain.

(** [struct point { u16 x; u16 y; }; struct shape { u8 kind IN [0..255]; struct point corner[2]; char name[3]; @ptr end; }]. *)
Definition plPoint := mkStruct "point" [] (Some [MField "x" (TInt 16 None); MField "y" (TInt 16 None)]).
Definition plShape := mkStruct "shape" [] (Some [MField "kind" (TInt 8 (Some [rg 0 255])); MField "corner" (TFixed (TStruct "point") (ILit 2)); MField "name" (TFixed TChar (ILit 3)); MField "end" TPtr]).
Notation plF := (one [plPoint; plShape]).
Lemma pl_package : package camelX osX plF (theRes plF) (theProg plF).
Proof. apply package_of; vm_compute; reflexivity. Qed.
Example C106_case : package camelX osX plF (theRes plF) (theProg plF) /\ defines plF plShape /\ plains (Constant (theRes plF)) (Struct (theRes plF)) (members_of plShape) 12 /\
  parses camelX (theProg plF) plShape (blank camelX (Constant (theRes plF)) plShape) [7; 0; 1; 0; 2; 1; 0; 2; 0; 65; 66; 67; 9] []
    [("Kind", VInt 7); ("Corner", VList [VStruct "Point" [("X", VInt 1); ("Y", VInt 2)]; VStruct "Point" [("X", VInt 256); ("Y", VInt 512)]]); ("Name", VList [VInt 65; VInt 66; VInt 67]); ("End", VInt 12)] [9].
Proof.
  assert (G : goBytes [7; 0; 1; 0; 2; 1; 0; 2; 0; 65; 66; 67; 9]) by (apply bytes_ok; vm_compute; reflexivity).
  assert (V : validCall camelX plF (theRes plF) plShape (blank camelX (Constant (theRes plF)) plShape) [7; 0; 1; 0; 2; 1; 0; 2; 0; 65; 66; 67; 9] []).
  { apply (fresh_call [plPoint; plShape] plShape); [vm_compute; reflexivity|right; now left|reflexivity|reflexivity|exact G]. }
  split; [exact pl_package|]. split; [apply V|]. split.
  - assert (W : forall sz, 0 <= sz -> plain (Constant (theRes plF)) (Struct (theRes plF)) (TInt sz None) (sz / 8)) by (intros sz N; apply PL_int; auto; intros; exact I).
    cbn [members_of plShape smembers]. change 12 with (8 / 8 + (2 * (16 / 8 + (16 / 8 + 0)) + (3 * 1 + (0 + 0)))).
    constructor; [apply PL_int; [lia|]; intros x X; cbn [allowed]; rewrite <- inList_spec; change (2 ^ 8) with 256 in X; cbn; lia|].
    constructor; [apply PL_array; [|reflexivity|lia]; apply (PL_struct _ _ "point" plPoint); [vm_compute; reflexivity|reflexivity|]|].
    + cbn [members_of plPoint smembers]. constructor; [apply W; lia|]. constructor; [apply W; lia|constructor].
    + constructor; [apply PL_array; [constructor|reflexivity|lia]|]. constructor; [constructor|constructor].
  - apply (parses_dec camelX osX _ _ _ pl_package _ _ _ _ V). exists 9%nat. vm_compute. reflexivity.
Qed.
