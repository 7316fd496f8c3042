(** Generated code keeps its numbers within 32 bits if lengths come from fields of
    at most 16 bits. *)
From Coq Require Import ZArith String List Bool Lia ZifyBool ZifyNat.
From Verif Require Import Base Ast IntervalsModel InspectModel InspectSpec InspectProofs GoLang GenModel GenCheck GenSim GenSimBody GenSimProg GenSafe WireSpec PackageSpec PackageProofs CompileProofs CompileProg ScopeProofs
  GoMem MemExec MemGen WordSpec MemWord.
Import ListNotations.
Open Scope string_scope.
Open Scope list_scope.
Open Scope Z_scope.

Section Gen.
Variable camel : string -> string.
Variable r : resolver.
Variable types : amap (list (string * gtype)).
Variable sigs : string -> list kind -> Prop.
Definition paramK (x : string) : kind := KTy (GPtr (camel x)).
Hypothesis STRUCT : forall n t, Struct r n = Some t -> Extern t = false -> sigs (camel n) (map paramK (scontexts t)) /\
  exists fl, alookup (camel n) types = Some fl /\ forall f g, alookup f fl = Some g -> sized g = true.
Hypothesis CTX : forall ctxs x n sz, ctxField r ctxs x n = Some sz -> exists fl, alookup (camel x) types = Some fl /\ alookup (camel n) fl = Some (GUint sz).

Variable rv ty : string.
Variable ds : list (string * gtype).
Variable ctxs : list string.
Variable ALL : list (string * type).
Variable LR : list idref.
Variable CT : list integer.
Hypothesis DS : alookup ty types = Some ds.
Hypothesis FIELD : forall nm t, In (nm, t) ALL -> exists g, tipe camel r t = Ok g /\ alookup (camel nm) ds = Some g.
Definition kin (k : known) : Prop := forall nm sz, alookup nm k = Some sz -> exists cst, In (nm, TInt sz cst) ALL.
Hypothesis WID : forall f k sz, In f LR -> kin k -> refWidth r ctxs k f = Some sz -> 0 <= sz <= 16.
Hypothesis CNT : forall i z, In i CT -> int_value (Constant r) i = Some z -> z < two31.

Notation hasK := (hasK types).
Notation place := (place types).
Notation wS := (wS types sigs KIn).
Notation wB := (wB types sigs KIn).
Notation wC := (wC types sigs KIn).

Lemma wB_app : forall G a G1 b G2, wB G a G1 -> wB G1 b G2 -> wB G (a ++ b) G2.
Proof.
  intros G a. revert G. induction a as [|s a IH]; intros G G1 b G2 A B; inversion A; subst; cbn [app]; auto. eapply wCons; eauto.
Qed.
Lemma wB_all : forall G ss, Forall (fun s => wS G s G) ss -> wB G ss G.
Proof. intros G ss F. induction F; [constructor|]. eapply wCons; eauto. Qed.

(** What is in scope. *)
Record scopeW (G : kctx) : Prop := mkScopeW {
  sw_cur : alookup "cur" G = Some KIn;
  sw_data : alookup "data" G = Some KIn;
  sw_ctx : forall x, In x ctxs -> alookup x G = Some (paramK x);
  sw_recv : alookup rv G = Some (KTy (GPtr ty)) }.
Lemma look_push : forall (G : kctx) x y k, x <> y -> alookup x ((y, k) :: G) = alookup x G.
Proof. intros G x y k N. cbn [alookup]. destruct (String.eqb_spec x y); congruence. Qed.
Lemma look_here : forall (G : kctx) x k, alookup x ((x, k) :: G) = Some k.
Proof. intros G x k. cbn [alookup]. now rewrite String.eqb_refl. Qed.
Lemma scopeW_push : forall G y k, scopeW G -> y <> "cur" -> y <> "data" -> y <> rv -> ~ In y ctxs -> scopeW ((y, k) :: G).
Proof.
  intros G y k [A B C D] N1 N2 N3 N4. constructor; [rewrite look_push by congruence; auto|rewrite look_push by congruence; auto| |rewrite look_push by congruence; auto].
  intros x I. rewrite look_push; auto. intros ->. contradiction.
Qed.

(** Where values go. *)
Inductive lhsK (G : kctx) : lval -> gtype -> Prop :=
| lh_field f g : alookup f ds = Some g -> lhsK G (LField (LVar rv) f) g
| lh_idxS f g m : alookup f ds = Some (GSlice g) -> alookup "idx" G = Some (KNum 0 m) -> lhsK G (LIdx (LField (LVar rv) f) (EVar "idx")) g
| lh_idxA f g n m : alookup f ds = Some (GArray n g) -> alookup "idx" G = Some (KNum 0 m) -> lhsK G (LIdx (LField (LVar rv) f) (EVar "idx")) g
| lh_tmp g : alookup "tmp" G = Some (KTy g) -> lhsK G (LVar "tmp") g.
Lemma lhs_push : forall G l g y k, lhsK G l g -> y <> "idx" -> y <> "tmp" -> lhsK ((y, k) :: G) l g.
Proof.
  intros G l g y k L N1 N2. destruct L; [now apply lh_field|eapply lh_idxS|eapply lh_idxA|apply lh_tmp]; eauto; rewrite look_push; eauto.
Qed.
Lemma recv_field : forall G f g, scopeW G -> alookup f ds = Some g -> hasK G (ESel (EVar rv) f) (KTy g).
Proof. intros G f g S L. eapply k_sel; eauto. apply k_var. apply S. Qed.
Lemma lhs_expr : forall G l g, scopeW G -> lhsK G l g -> hasK G (lexpr l) (KTy g).
Proof.
  intros G l g S L. destruct L; cbn [lexpr].
  - now apply recv_field.
  - eapply k_idxS; [now apply recv_field|apply k_var; eauto].
  - eapply k_idxA; [eapply recv_field; eauto|apply k_var; eauto].
  - now apply k_var.
Qed.
Lemma lhs_place : forall G l g, scopeW G -> lhsK G l g -> place G l (KTy g).
Proof.
  intros G l g S L. assert (F : forall f g, alookup f ds = Some g -> place G (LField (LVar rv) f) (KTy g)).
  { intros f h E. eapply p_field; eauto. cbn [lexpr]. apply k_var. apply S. }
  destruct L; auto.
  - eapply p_idxS; [cbn [lexpr]; now apply recv_field|apply k_var; eauto].
  - eapply p_idxA; [apply F; eauto|cbn [lexpr]; eapply recv_field; eauto|apply k_var; eauto].
  - now apply p_var.
Qed.

Lemma cond_kind : forall G v k l c, hasK G v k -> conditional r v l = Ok c -> exists k', hasK G c k'.
Proof.
  intros G v k l c K H. unfold conditional in H. apply bind_ok in H as (cs & Hc & H). injection H as <-.
  assert (F : Forall (fun c => exists k', hasK G c k') cs).
  { revert cs Hc. induction l as [|g l IH]; intros cs Hc; cbn [mapM] in Hc; [injection Hc as <-; constructor|].
    apply bind_ok in Hc as (c1 & H1 & Hc). apply bind_ok in Hc as (cs1 & H2 & Hc). injection Hc as <-. constructor; eauto. unfold clauseOf in H1. destruct (rhigh g).
    - apply bind_ok in H1 as (lo & _ & H1). apply bind_ok in H1 as (h & _ & H1). injection H1 as <-. eexists. apply k_paren. eapply k_bin; [exact I| |].
      + eapply k_bin; [exact I|apply k_int|exact K].
      + eapply k_bin; [exact I|exact K|apply k_int].
    - apply bind_ok in H1 as (lo & _ & H1). injection H1 as <-. eexists. eapply k_bin; [exact I|exact K|apply k_int]. }
  destruct cs as [|c1 cs]; cbn [joinOr]; [eexists; apply k_blank|]. inversion F as [|? ? F1 F2]; subst. clear F Hc. revert c1 F1. induction F2 as [|c2 cs [k2 K2] F2 IH]; intros c1 [k1 K1]; cbn [fold_left]; eauto.
  apply IH. eexists. eapply k_bin; [exact I|exact K1|exact K2].
Qed.

Lemma w_ret : forall G m, wB G [retErr m] G.
Proof. intros G m. eapply wCons; [|constructor]. eapply wReturn; [apply k_nil|apply k_err|apply sub_nil_in|apply sub_refl]. Qed.
Lemma cur_kind : forall G, scopeW G -> hasK G GenModel.cur KIn.
Proof. intros G S. apply k_var. apply S. Qed.
Lemma w_check : forall G n k, scopeW G -> hasK G n k -> wS G (lengthCheck n) G.
Proof. intros G n k S K. unfold lengthCheck. eapply wIf; [|apply w_ret]. eapply k_bin; [exact I|apply k_len; now apply cur_kind|exact K]. Qed.
Lemma w_end : forall G, scopeW G -> wS G assertEnd G.
Proof. intros G S. unfold assertEnd. eapply wIf; [|apply w_ret]. eapply k_bin; [exact I|apply k_len; now apply cur_kind|apply k_int]. Qed.
Lemma w_cur : forall G a, scopeW G -> hasK G a KIn -> wS G (SAssign (LVar "cur") a) G.
Proof. intros G a S K. eapply wSet; [exact K|apply p_var; apply S|apply sub_refl]. Qed.

Lemma goodSize_cases : forall sz, goodSize sz = true -> sz = 8 \/ sz = 16 \/ sz = 32 \/ sz = 64.
Proof. clear. intros sz H. unfold goodSize in H. lia. Qed.

(** Element types. *)
Lemma int_w : forall G lhs sz cst b g, parseIntType r lhs sz cst = Ok b -> goodSize sz = true -> scopeW G -> lhsK G lhs g ->
  numOf (KTy g) = Some (0, 2 ^ sz) -> wB G b G.
Proof.
  intros G lhs sz cst b g P C S L N. unfold parseIntType in P. apply bind_ok in P as (ck & Hc & P). injection P as <-.
  apply wB_all. constructor; [eapply w_check; eauto; apply k_int|]. constructor.
  { destruct (sz / 8 =? 1) eqn:E8.
    - assert (sz = 8) as -> by (destruct (goodSize_cases _ C) as [-> |[-> |[-> | ->]]]; auto; discriminate).
      eapply wSet; [eapply k_idxIn; [now apply cur_kind|apply k_int]|eapply lhs_place; eassumption|]. eapply sub_num; [exact N|lia|]. change (2 ^ 8) with 256. lia.
    - eapply wSet; [apply k_be; now apply cur_kind|eapply lhs_place; eassumption|]. eapply sub_num; [exact N|lia|lia]. }
  apply Forall_app. split; [|constructor; [apply w_cur; auto; eapply k_from; [now apply cur_kind|apply k_int]|constructor]].
  destruct cst as [l|].
  - apply bind_ok in Hc as (c & Hc & P). injection P as <-. constructor; [|constructor]. destruct (cond_kind _ _ _ _ _ (lhs_expr _ _ _ S L) Hc) as [k K].
    eapply wIf; [|apply w_ret]. eapply k_not. apply k_paren. exact K.
  - injection Hc as <-. constructor.
Qed.

Lemma base_w : forall t lhs b G g, parseType camel r rv lhs t = Ok b -> checkBase r ctxs t = true -> tipe camel r t = Ok g -> scopeW G -> lhsK G lhs g ->
  (forall y, In y (localsT t) -> y <> rv /\ ~ In y ctxs) -> exists d, wB G b (d ++ G) /\ (forall y, In y (map fst d) -> In y (localsT t)).
Proof.
  intros t lhs b G g P C T S L LV.
  destruct t as [sz cst| | | |n|b0 i0|b0 l0]; cbn [checkBase] in C; try discriminate; cbn [parseType] in P; cbn [tipe] in T; try injection T as <-.
  - exists []. split; [|intros y []]. cbn [app]. unfold checkInt in C. apply andb_true_iff in C as [C _]. eapply int_w; eauto.
  - exists []. split; [|intros y []]. cbn [app]. eapply int_w; eauto. 
  - injection P as <-. exists []. split; [|intros y []]. cbn [app]. apply wB_all. constructor; [|constructor].
    eapply wSet; [|eapply lhs_place; eassumption|].
    + eapply k_sub; [apply k_len; apply k_var; apply S|apply k_len; now apply cur_kind|reflexivity|reflexivity|unfold two31; lia|unfold two31; lia].
    + eapply sub_num; [reflexivity|unfold two31; lia|unfold two31; lia].
  - injection P as <-. exists [("i", KNum (-1) (two31 - 1))]. split; [|cbn; tauto]. cbn [app]. destruct (LV "i" (or_introl eq_refl)) as [L1 L2].
    eapply wCons; [eapply wDecl; apply k_index; now apply cur_kind|].
    assert (S1 : scopeW (("i", KNum (-1) (two31 - 1)) :: G)) by (apply scopeW_push; auto; discriminate).
    assert (LI : alookup "i" (("i", KNum (-1) (two31 - 1)) :: G) = Some (KNum (-1) (two31 - 1))) by apply look_here.
    apply wB_all. constructor; [|constructor; [|constructor]].
    + eapply wIf; [|apply w_ret]. eapply k_bin; [exact I|apply k_var; exact LI|apply k_int].
    + eapply wSet2.
      * apply k_str. eapply k_to; [now apply cur_kind|apply k_var; exact LI].
      * eapply k_from; [now apply cur_kind|]. eapply k_add; [apply k_var; exact LI|apply k_int|reflexivity|reflexivity|unfold two31; lia|unfold two31; lia].
      * eapply lhs_place; [exact S1|]. apply lhs_push; [exact L|discriminate|discriminate].
      * apply p_var. apply S1.
      * apply sub_refl.
      * apply sub_refl.
  - destruct (Struct r n) as [s|] eqn:HS; [|discriminate]. injection P as <-. apply andb_true_iff in C as [CE CC]. apply negb_true_iff in CE.
    destruct (STRUCT n s HS CE) as (SG & fl & LF & SZ).
    exists [("err", KTy GError)]. split; [|cbn; tauto]. cbn [app]. destruct (LV "err" (or_introl eq_refl)) as [L1 L2].
    eapply wCons; [apply wVar; reflexivity|].
    assert (S1 : scopeW (("err", KTy GError) :: G)) by (apply scopeW_push; auto; discriminate).
    assert (LE : alookup "err" (("err", KTy GError) :: G) = Some (KTy GError)) by apply look_here.
    assert (LL : lhsK (("err", KTy GError) :: G) lhs (GPtr (camel n))) by (apply lhs_push; auto; discriminate).
    apply wB_all. constructor; [|constructor; [|constructor; [|constructor]]].
    + eapply wSet; [eapply k_new; eauto|eapply lhs_place; eassumption|apply sub_refl].
    + eapply wParse; [eapply lhs_expr; eassumption|now apply cur_kind|exact SG| |apply S1|exact LE].
      rewrite forallb_forall in CC. clear SG. induction (scontexts s) as [|x xs IH]; cbn [map]; constructor.
      * apply k_var. apply S1. apply memb_in. apply CC. now left.
      * apply IH. intros y I. apply CC. now right.
    + eapply wIf; [eapply k_notNil; apply k_var; exact LE|]. eapply wCons; [|constructor]. eapply wReturn; [apply k_nil|apply k_var; exact LE|apply sub_nil_in|apply sub_refl].
Qed.

Lemma base_sized : forall t g, checkBase r ctxs t = true -> tipe camel r t = Ok g -> sized g = true /\ 0 <= hsize 4 g <= hsize 8 g /\ hsize 8 g <= 16.
Proof.
  intros t g C T. clear - C T. destruct t as [sz cst| | | |n|b0 i0|b0 l0]; cbn [checkBase] in C; try discriminate; cbn [tipe] in T; injection T as <-; cbn [sized hsize]; try lia.
  unfold checkInt in C. apply andb_true_iff in C as [C _]. destruct (goodSize_cases _ C) as [-> |[-> |[-> | ->]]]; cbn; lia.
Qed.

(** References. *)
Lemma ref_kind : forall G k f sz, scopeW G -> kin k -> refWidth r ctxs k f = Some sz -> hasK G (refExpr camel rv f) (KTy (GUint sz)).
Proof.
  intros G k f sz S K W. unfold refExpr, refWidth in *. destruct (String.eqb (rscope f) "").
  - destruct (K _ _ W) as [cst I]. destruct (FIELD _ _ I) as (g & T & L). cbn [tipe] in T. injection T as <-. now apply recv_field.
  - destruct (CTX _ _ _ _ W) as (fl & L1 & L2). assert (J : In (rscope f) ctxs).
    { unfold ctxField in W. destruct (memb (rscope f) ctxs) eqn:M; [|discriminate]. now apply memb_in in M. }
    eapply k_sel; [apply k_var; now apply S|exact L1|exact L2].
Qed.
Lemma len_kind : forall G k f sz, scopeW G -> kin k -> refWidth r ctxs k f = Some sz -> In f LR -> 0 <= sz <= 16 /\ 1 <= 2 ^ sz <= 65536 /\ hasK G (EToInt (refExpr camel rv f)) (KNum 0 (2 ^ sz)).
Proof.
  intros G k f sz S K W I. pose proof (WID _ _ _ I K W) as B. assert (B2 : 1 <= 2 ^ sz <= 65536).
  { split; [apply (Z.pow_le_mono_r 2 0 sz); lia|apply (Z.pow_le_mono_r 2 sz 16); lia]. }
  split; auto. split; auto. eapply k_toInt; [eapply ref_kind; eauto|reflexivity|unfold two31; lia|unfold two31; lia].
Qed.
Lemma count_value : forall i z, integerOf r i = Ok z -> goodCount r i = true -> In i CT -> 0 <= z < two31.
Proof. intros i z H C I. apply integerOf_value in H. unfold goodCount in C. rewrite H in C. pose proof (CNT _ _ I H). lia. Qed.

Lemma constrained_w : forall G k c body b, constrained camel r rv c body = Ok b -> scopeW G -> kin k ->
  match c with LLeftover i => goodCount r i = true /\ In i CT | LRef f => In f LR /\ refWidth r ctxs k f <> None end ->
  "restore" <> rv -> ~ In "restore" ctxs ->
  (exists G1, wB (("restore", KIn) :: G) body (G1 ++ ("restore", KIn) :: G) /\ scopeW (G1 ++ ("restore", KIn) :: G) /\ alookup "restore" (G1 ++ ("restore", KIn) :: G) = Some KIn) ->
  exists G', wB G b G'.
Proof.
  intros G k c body b P S K W N1 N2 (G1 & OB & SB & RB). unfold constrained in P. apply bind_ok in P as ([ck n] & Hc & P). injection P as <-.
  assert (S1 : scopeW (("restore", KIn) :: G)) by (apply scopeW_push; auto; discriminate).
  assert (X : wS G ck G /\ (exists kn, hasK G n kn) /\ exists kn, hasK (("restore", KIn) :: G) n kn).
  { destruct c.
    - injection Hc as <- <-. destruct W as [W1 W2]. destruct (refWidth r ctxs k r0) as [sz|] eqn:RW; [|congruence].
      destruct (len_kind _ _ _ _ S K RW W1) as (_ & _ & A). destruct (len_kind _ _ _ _ S1 K RW W1) as (_ & _ & B). split; [eapply w_check; eauto|]. eauto.
    - apply bind_ok in Hc as (z & Hz & Hc). injection Hc as <- <-. destruct W as [W1 W2]. pose proof (count_value _ _ Hz W1 W2) as B. split; [eapply w_check; eauto; apply k_int|].
      split; eexists; (eapply k_sub; [apply k_len; now apply cur_kind|apply k_int|reflexivity|reflexivity|unfold two31 in *; lia|unfold two31 in *; lia]). }
  destruct X as (X1 & [k1 X2] & [k2 X3]). eexists. cbn [app].
  eapply wCons; [exact X1|]. eapply wCons; [eapply wDecl; eapply k_from; [now apply cur_kind|exact X2]|].
  eapply wCons; [apply w_cur; auto; eapply k_to; [now apply cur_kind|exact X3]|].
  eapply wB_app; [exact OB|]. apply wB_all. constructor; [now apply w_end|]. constructor; [|constructor]. apply w_cur; auto. now apply k_var.
Qed.

Lemma fill_w : forall G g b0 body f, parseType camel r rv (LVar "tmp") b0 = Ok body -> checkBase r ctxs b0 = true -> tipe camel r b0 = Ok g ->
  alookup f ds = Some (GSlice g) -> scopeW G -> "tmp" <> rv -> ~ In "tmp" ctxs -> (forall y, In y (localsT b0) -> y <> rv /\ ~ In y ctxs) ->
  wB G [SAssign (LField (LVar rv) f) (EMake g (EInt 0));
        SWhile (EBin BGt (ELen GenModel.cur) (EInt 0))
          ([SVar "tmp" g] ++ body ++ [SAssign (LField (LVar rv) f) (EAppend (lexpr (LField (LVar rv) f)) (EVar "tmp"))])] G.
Proof.
  intros G g b0 body f P C T LF S N1 N2 LV. destruct (base_sized _ _ C T) as (Z1 & Z2 & Z3).
  assert (ST : scopeW (("tmp", KTy g) :: G)) by (apply scopeW_push; auto; discriminate).
  destruct (base_w b0 (LVar "tmp") body (("tmp", KTy g) :: G) g P C T ST) as (d & OB & D); auto.
  { apply lh_tmp. apply look_here. }
  assert (SD : scopeW (d ++ ("tmp", KTy g) :: G) /\ alookup "tmp" (d ++ ("tmp", KTy g) :: G) = Some (KTy g)).
  { clear OB. assert (NT : forall y, In y (localsT b0) -> y <> "tmp" /\ y <> "cur" /\ y <> "data").
    { intros y I. destruct b0; cbn [checkBase localsT] in *; try discriminate; cbn in I; intuition congruence. }
    induction d as [|[y k] d IH]; cbn [app]; [split; auto; apply look_here|]. destruct IH as [I1 I2]; [intros z I; apply D; now right|].
    assert (J : In y (localsT b0)) by (apply D; now left). destruct (LV _ J), (NT _ J) as (? & ? & ?). split; [apply scopeW_push; auto|]. rewrite look_push; auto. }
  destruct SD as [SD TD].
  apply wB_all. constructor; [|constructor; [|constructor]].
  - eapply wSet; [|eapply lhs_place; [exact S|apply lh_field; exact LF]|apply sub_refl].
    eapply k_make; [auto|apply k_int|reflexivity|lia|change (2 ^ 32) with 4294967296; lia].
  - eapply wWhile; [eapply k_bin; [exact I|apply k_len; now apply cur_kind|apply k_int]|]. cbn [app].
    eapply wCons; [apply wVar; auto|]. eapply wB_app; [exact OB|]. eapply wCons; [|constructor].
    eapply wSet; [|eapply lhs_place; [exact SD|apply lh_field; exact LF]|apply sub_refl].
    eapply k_append; [eapply lhs_expr; [exact SD|apply lh_field; exact LF]|apply k_var; exact TD|apply sub_refl].
Qed.

Lemma type_w : forall k t nm b G, parseType camel r rv (LField (LVar rv) (camel nm)) t = Ok b -> checkType r ctxs k t = true -> scopeW G -> kin k ->
  In (nm, t) ALL -> incl (lengthRefT t) LR -> incl (countsT t) CT ->
  (forall y, In y (localsT t) -> y <> rv /\ ~ In y ctxs) -> exists G', wB G b G'.
Proof.
  intros k t nm b G P C S K IA IR IC LV. destruct (FIELD _ _ IA) as (g & T & LF).
  assert (BASE : checkBase r ctxs t = true -> exists G', wB G b G').
  { intros CB. destruct (base_w t _ b G g P CB T S) as (d & OB & _); auto; [now apply lh_field|]. eexists; exact OB. }
  assert (ARR : forall b0 body bound m, checkBase r ctxs b0 = true -> parseType camel r rv (LIdx (LField (LVar rv) (camel nm)) (EVar "idx")) b0 = Ok body ->
     (forall h, tipe camel r b0 = Ok h -> lhsK (("idx", KNum 0 m) :: G) (LIdx (LField (LVar rv) (camel nm)) (EVar "idx")) h) -> (exists h, tipe camel r b0 = Ok h) ->
     (forall y, In y ("idx" :: localsT b0) -> y <> rv /\ ~ In y ctxs) -> 0 <= m < two31 ->
     (exists kb lo, hasK (("idx", KNum 0 (m + 1)) :: G) bound kb /\ numOf kb = Some (lo, m + 1)) -> wS G (SForLt "idx" bound body) G).
  { intros b0 body bound m CB PB LB [h TB] LX M (kb & lo & KB & NB). destruct (LX "idx" (or_introl eq_refl)) as [X1 X2].
    assert (SX : scopeW (("idx", KNum 0 m) :: G)) by (apply scopeW_push; auto; discriminate).
    destruct (base_w b0 _ body _ h PB CB TB SX (LB _ TB)) as (d & OB & _); [intros y J; apply LX; now right|].
    eapply wFor; eauto. }
  destruct t as [sz cst| | | |n|b0 i0|b0 [[rf|i0]|]]; cbn [checkType] in C; auto; cbn [parseType] in P; cbn [localsT] in LV; cbn [tipe] in T; cbn [lengthRefT countsT] in *.
  - apply andb_true_iff in C as [C CC]. apply bind_ok in P as (n & Hn & P). apply bind_ok in P as (body & HB & P). injection P as <-.
    rewrite Hn in T. cbn [bind] in T. apply bind_ok in T as (h & TB & T). injection T as <-.
    pose proof (count_value _ _ Hn CC (IC _ (or_introl eq_refl))) as B. exists G. apply wB_all. constructor; [|constructor].
    eapply (ARR b0 body (EInt n) n); eauto.
    + intros h' E. rewrite TB in E. injection E as <-. eapply lh_idxA; [exact LF|apply look_here].
    + eexists _, _. split; [apply k_int|reflexivity].
  - apply andb_true_iff in C as [C W]. apply bind_ok in P as (g0 & Hg & P). apply bind_ok in P as (body & HB & P). injection P as <-.
    rewrite Hg in T. cbn [bind] in T. injection T as <-. destruct (base_sized _ _ C Hg) as (Z1 & Z2 & Z3).
    destruct (refWidth r ctxs k rf) as [sz|] eqn:RW; [|discriminate]. assert (IRF : In rf LR) by (apply IR; now left).
    destruct (len_kind _ _ _ _ S K RW IRF) as (B1 & B2 & KL). destruct (LV "idx" (or_introl eq_refl)) as [X1 X2].
    exists G. apply wB_all. constructor; [|constructor; [|constructor]].
    + eapply wSet; [|eapply lhs_place; [exact S|apply lh_field; exact LF]|apply sub_refl].
      eapply k_make; [auto|exact KL|reflexivity|lia|]. change (2 ^ 32) with 4294967296. nia.
    + eapply (ARR b0 body _ (2 ^ sz - 1)); eauto.
      * intros h' E. rewrite Hg in E. injection E as <-. eapply lh_idxS; [exact LF|apply look_here].
      * unfold two31. lia.
      * replace (2 ^ sz - 1 + 1) with (2 ^ sz) by lia.
        assert (SX : scopeW (("idx", KNum 0 (2 ^ sz)) :: G)) by (apply scopeW_push; auto; discriminate).
        destruct (len_kind _ _ _ _ SX K RW IRF) as (_ & _ & KX). eexists _, _. split; [exact KX|reflexivity].
  - apply andb_true_iff in C as [C W]. apply bind_ok in P as (g0 & Hg & P). apply bind_ok in P as (body & HB & P).
    rewrite Hg in T. cbn [bind] in T. injection T as <-.
    destruct (LV "restore") as [R1 R2]; [left; reflexivity|]. destruct (LV "tmp") as [T1 T2]; [right; left; reflexivity|].
    assert (SR : scopeW (("restore", KIn) :: G)) by (apply scopeW_push; auto; discriminate).
    eapply constrained_w; eauto; [split; auto; apply IC; now left|]. exists []. cbn [app]. split; [|split; [exact SR|apply look_here]].
    eapply fill_w; eauto. intros y J. apply LV. right. right. auto.
  - apply bind_ok in P as (g0 & Hg & P). apply bind_ok in P as (body & HB & P). injection P as <-. rewrite Hg in T. cbn [bind] in T. injection T as <-.
    destruct (LV "tmp") as [T1 T2]; [left; reflexivity|].
    exists G. eapply fill_w; eauto. intros y J. apply LV. right. auto.
Qed.

Definition memberW (m : member) : Prop := forall k s G, parseMember camel r rv m = Ok s -> checkMember r ctxs k m = true -> scopeW G -> kin k ->
  incl (allFields m) ALL -> incl (lengthRefs m) LR -> incl (countsM m) CT ->
  (forall y, In y (localsM m) -> y <> rv /\ ~ In y ctxs) -> wS G s G.
Lemma members_w : forall ms k b G, (forall m, In m ms -> memberW m) ->
  mapM (parseMember camel r rv) ms = Ok b -> checkMembers r ctxs k ms = true -> scopeW G -> kin k ->
  incl (flat_map allFields ms) ALL -> incl (flat_map lengthRefs ms) LR -> incl (flat_map countsM ms) CT ->
  (forall m y, In m ms -> In y (localsM m) -> y <> rv /\ ~ In y ctxs) -> wB G b G.
Proof.
  induction ms as [|m ms IHm]; intros k b G IHH M CM S K I1 I2 I3 LM; cbn [mapM checkMembers] in *.
  - injection M as <-. constructor.
  - apply bind_ok in M as (s1 & M1 & M). apply bind_ok in M as (b1 & M2 & M). injection M as <-. apply andb_true_iff in CM as [CM1 CM2].
    cbn [flat_map] in *. apply incl_app_inv in I1 as [I1 J1]. apply incl_app_inv in I2 as [I2 J2]. apply incl_app_inv in I3 as [I3 J3].
    eapply wCons; [eapply (IHH m (or_introl eq_refl)); eauto|eapply (IHm (addKnown k m)); eauto].
    + intros y I. eapply LM; eauto. left. reflexivity.
    + intros m' I. apply IHH. right. auto.
    + intros nm sz E. destruct m as [nm' t'| | | |]; cbn [addKnown] in E; auto. destruct t'; auto. cbn [alookup] in E. destruct (String.eqb_spec nm nm') as [->|]; auto.
      injection E as <-. eexists. apply I1. cbn. auto.
    + intros m' y I. apply LM. right. auto.
Qed.

Lemma member_w : forall m, memberW m.
Proof.
  induction m as [nm t|u tag len cs IH| | |] using member_ind'; intros k s G P C S K I1 I2 I3 LV.
  - cbn [parseMember] in P. apply bind_ok in P as (b & P & E). injection E as <-. destruct (type_w k t nm b G P C S K) as (G' & OB); auto; [apply I1; now left|]. eapply wBlock; eauto.
  - rewrite parseMember_union in P. apply bind_ok in P as (cases & HC & P). cbn [checkMember] in C. apply andb_true_iff in C as [C C3].
    apply andb_true_iff in C as [C1 C2]. cbn [allFields lengthRefs countsM] in *. apply incl_app_inv in I2 as [I2a I2]. apply incl_app_inv in I3 as [I3a I3].
    destruct (refWidth r ctxs k tag) as [sz|] eqn:RW; [|discriminate].
    assert (SW : forall G1, scopeW G1 -> wC G1 cases).
    { clear P C2 S I2a I3a. intros G1 S1. rewrite Forall_forall in IH. pose proof (ref_kind _ _ _ _ S1 K RW) as KR.
      assert (LC : forall l ms m y, In (UCase l ms) cs -> In m ms -> In y (localsM m) -> y <> rv /\ ~ In y ctxs).
      { intros l ms m y I J K'. apply LV. cbn [localsM]. apply in_or_app. right. apply in_flat_map. exists (UCase l ms). split; auto. apply in_flat_map. eauto. }
      clear LV. revert cases HC. induction cs as [|[l0 ms] cs IHc]; intros cases HC; cbn [parseCases] in HC.
      - injection HC as <-. constructor.
      - cbn [flat_map forallb] in *. apply incl_app_inv in I1 as [I1 J1]. apply incl_app_inv in I2 as [I2 J2]. apply incl_app_inv in I3 as [I3 J3].
        apply andb_true_iff in C3 as [C3 C4]. apply andb_true_iff in C3 as [D C3].
        assert (BODY : forall b, mapM (parseMember camel r rv) ms = Ok b -> wB G1 b G1).
        { intros b H2. eapply (members_w ms k b G1); [|exact H2|rewrite <- kfix_eq; exact C3|exact S1|exact K|exact I1|exact I2|exact I3|intros m y I; eapply LC; [left; reflexivity|exact I]].
          specialize (IH (UCase l0 ms) (or_introl eq_refl)). cbn [ucase_members] in IH. rewrite Forall_forall in IH. exact IH. }
        assert (REST : forall cases, parseCases camel r rv tag cs = Ok cases -> wC G1 cases).
        { intros cases' H3. apply IHc; auto; [intros x I; apply IH; right; auto|]. intros; eapply LC; eauto. right; eauto. }
        destruct l0 as [l|].
        + apply bind_ok in HC as (c & H1 & HC). apply bind_ok in HC as (b & H2 & HC). apply bind_ok in HC as (rest & H3 & HC). injection HC as <-.
          destruct (cond_kind _ _ _ _ _ KR H1) as [kc KC]. eapply wCsome; eauto.
        + apply bind_ok in HC as (b & H2 & HC). apply bind_ok in HC as (rest & H3 & HC). injection HC as <-. eapply wCnone; eauto. }
    destruct len as [c|].
    + apply bind_ok in P as (b & P & E). injection E as <-. cbn [localsM] in LV. destruct (LV "restore") as [R1 R2]; [left; reflexivity|].
      assert (SR : scopeW (("restore", KIn) :: G)) by (apply scopeW_push; auto; discriminate).
      destruct (constrained_w G k c _ b P S K) as (G' & OB); auto.
      * destruct c; [split; [apply I2a; now left|destruct (refWidth r ctxs k r0); congruence]|split; auto; apply I3a; now left].
      * exists []. cbn [app]. split; [|split; [exact SR|apply look_here]]. apply wB_all. constructor; [|constructor]. apply wSwitch. auto.
      * eapply wBlock; eauto.
    + injection P as <-. eapply wBlock. apply wB_all. constructor; [|constructor]. apply wSwitch. auto.
  - cbn in P. injection P as <-. eapply wBlock. apply wB_all. constructor; [|constructor]. now apply w_end.
  - cbn in P. injection P as <-. eapply wBlock. apply w_ret.
  - cbn in P. injection P as <-. eapply wBlock. apply wB_all. constructor; [|constructor]. apply w_cur; auto. apply k_empty.
Qed.
End Gen.

(** Calls. *)
Definition paramsK (camel : string -> string) (xs : list string) : kctx := map (fun x => (x, paramK camel x)) xs.
Definition sigsOf (camel : string -> string) (p : program) (ty : string) (ks : list kind) : Prop :=
  exists f, alookup ty (pmethods p) = Some f /\ ks = map (paramK camel) (fparams f).
Definition methodsW (camel : string -> string) (p : program) : Prop := forall ty f, alookup ty (pmethods p) = Some f ->
  exists G', wB (ptypes p) (sigsOf camel p) KIn ((frecv f, KTy (GPtr ty)) :: ("data", KIn) :: paramsK camel (fparams f)) (fbody f) G'.
Definition ctorsW (camel : string -> string) (p : program) : Prop := forall ty f, alookup ty (pctors p) = Some f ->
  exists G', wB (ptypes p) (sigsOf camel p) (KTy (GPtr ty)) (("data", KIn) :: paramsK camel (fparams f)) (fbody f) G'.

Lemma params_env : forall camel S xs vs, Forall2 (kv S) (map (paramK camel) xs) vs -> envK S (paramsK camel xs) (combine xs vs).
Proof.
  intros camel S. induction xs as [|x xs IH]; intros vs F; cbn [map] in F; inversion F; subst; cbn [paramsK map combine]; constructor; auto. apply IH. auto.
Qed.

Section Calls.
Variable camel : string -> string.
Variable p : program.
Variable pl : platform.
Hypothesis W : word pl = 4.
Hypothesis MW : methodsW camel p.
Notation pl8 := (mkPlatform 8 (grow pl)).

Lemma call_same : forall n S H ty ks recv d vs, goHeap (ptypes p) S H -> goVal S (GPtr ty) recv -> goInput S d -> sigsOf camel p ty ks -> Forall2 (kv S) ks vs ->
  hcallMethod pl p n H recv d vs = hcallMethod pl8 p n H recv d vs /\ retPost (ptypes p) S KIn (fst (hcallMethod pl p n H recv d vs)) (snd (hcallMethod pl p n H recv d vs)).
Proof.
  induction n as [|n IH]; intros S H ty ks recv d vs HH GV GI (f & LF & ->) F.
  - cbn [hcallMethod]. split; [reflexivity|]. destruct recv as [| | | |l| | |]; try exact Logic.I. destruct (nth_error H l) as [[]|]; try exact Logic.I. destruct (alookup ty0 (pmethods p)); exact Logic.I.
  - cbn [hcallMethod]. destruct recv as [| | | |l| | |]; try (split; [reflexivity|exact Logic.I]).
    destruct (nth_error H l) as [o|] eqn:NE; [|split; [reflexivity|exact Logic.I]]. destruct o as [?|ty' fl]; [split; [reflexivity|exact Logic.I]|].
    assert (ty' = ty) as ->.
    { inversion GV as [| | |? ? NS| | | | | |]; subst. pose proof (heap_at _ _ _ _ _ HH NS) as X.
      destruct X as (o & E & fs & EO & _). rewrite NE in E. injection E as <-. congruence. }
    rewrite LF. destruct (MW ty f LF) as (G' & WB).
    destruct (exec_same (ptypes p) pl W (sigsOf camel p) KIn (hcallMethod pl p n) (hcallMethod pl8 p n) n) as (_ & SB & _).
    { intros S0 H0 ty0 ks0 recv0 d0 vs0 A1 A2 A3 A4 A5. eapply IH; eauto. }
    destruct (SB _ _ _ WB S H ((frecv f, HPtr l) :: ("data", d) :: combine (fparams f) vs) HH) as [E P].
    { constructor; [split; [reflexivity|exact GV]|]. constructor; [split; [reflexivity|exact GI]|]. apply params_env; auto. }
    unfold MemWord.pl8 in E. rewrite <- E. split; [reflexivity|]. destruct (hexecs pl (ptypes p) (hcallMethod pl p n) n (fbody f) H ((frecv f, HPtr l) :: ("data", d) :: combine (fparams f) vs)) as [[H1 e1] rr].
    cbn [fst snd]. unfold execPost in P. destruct rr; auto; exact Logic.I.
Qed.

Lemma ctor_same : ctorsW camel p -> forall n S H ty ks d vs, goHeap (ptypes p) S H -> goInput S d -> sigsOf camel p ty ks -> Forall2 (kv S) ks vs ->
  (forall f c, alookup ty (pmethods p) = Some f -> alookup ty (pctors p) = Some c -> fparams c = fparams f) ->
  hcallCtor pl p n ty H d vs = hcallCtor pl8 p n ty H d vs.
Proof.
  intros CW n S H ty ks d vs HH GI (f & LF & ->) F EP. unfold hcallCtor. destruct (alookup ty (pctors p)) as [c|] eqn:LC; auto.
  destruct (CW ty c LC) as (G' & WB).
  destruct (exec_same (ptypes p) pl W (sigsOf camel p) (KTy (GPtr ty)) (hcallMethod pl p n) (hcallMethod pl8 p n) n) as (_ & SB & _).
  { intros. eapply call_same; eauto. }
  destruct (SB _ _ _ WB S H (("data", d) :: combine (fparams c) vs) HH) as [E _].
  { constructor; [split; [reflexivity|exact GI]|]. apply params_env. rewrite (EP f c LF eq_refl). auto. }
  unfold MemWord.pl8 in E. now rewrite E.
Qed.
End Calls.

(** Packages. *)
Section Package.
Variable camel : string -> string.
Variable os : nat -> orders.
Variable fs : list file.
Variable r : resolver.
Variable p : program.
Hypothesis PK : package camel os fs r p.
Hypothesis SH : shortFiles fs r.

Lemma types_once : NoDup (map fst (ptypes p)).
Proof.
  pose proof (pk_gen _ _ _ _ _ PK) as G. destruct PK as [_ _ _ C].
  unfold genProgram in G. apply bind_ok in G as (cs & Hc & H). apply bind_ok in H as (ss & Hs & H). injection H as <-. cbn [ptypes].
  unfold checkFiles in C. apply andb_true_iff in C as [_ Hn]. apply nodupb_NoDup in Hn.
  rewrite map_app, map_map. erewrite (map_ext _ (fun x => fst (fst (fst x)))) by (intros [[[a b] c] d]; reflexivity).
  rewrite (mapM_map _ (fun x => fst (fst (fst x))) (fun s => camel (sname s)) _ _ Hs), (mapM_map _ fst (fun c => camel (cname c)) _ _ Hc); auto.
  - intros c x E. unfold contextDecl in E. apply bind_ok in E as (? & _ & E). now injection E as <-.
  - intros s x E. unfold structureDecl in E. apply bind_ok in E as (? & _ & E). apply bind_ok in E as (? & _ & E). apply bind_ok in E as (? & _ & E). now injection E as <-.
Qed.
Lemma context_type : forall c, In c (flat_map fcontexts fs) ->
  exists fl, alookup (camel (cname c)) (ptypes p) = Some fl /\ mapM (fun f => g <- tipe camel r (snd f) ;; Ok (camel (fst f), g)) (cmembers c) = Ok fl.
Proof.
  intros c I. pose proof (pk_gen _ _ _ _ _ PK) as G. pose proof types_once as ND.
  unfold genProgram in G. apply bind_ok in G as (cs & Hc & H). apply bind_ok in H as (ss & Hs & H). injection H as E.
  destruct (mapM_in _ _ _ _ Hc I) as (x & Hx & Ix). unfold contextDecl in Hx. apply bind_ok in Hx as (fl & Hf & Hx). injection Hx as <-.
  exists fl. split; auto. apply alookup_in; auto. rewrite <- E. cbn [ptypes]. apply in_or_app. auto.
Qed.
Lemma context_field : forall ctxs x n sz, ctxField r ctxs x n = Some sz ->
  exists fl, alookup (camel x) (ptypes p) = Some fl /\ alookup (camel n) fl = Some (GUint sz).
Proof.
  intros ctxs x n sz H. unfold ctxField in H. destruct (memb x ctxs); [|discriminate]. destruct (Context r x) as [c|] eqn:E; [|discriminate].
  destruct (findIntField n (cmembers c)) as [[sz' cst]| | |] eqn:F; try discriminate. injection H as ->.
  destruct (context_in _ _ _ _ _ PK _ _ E) as [I <-]. destruct (context_type c I) as (fl & L & M). exists fl. split; auto.
  apply findIntField_in in F. destruct (mapM_in _ _ _ _ M F) as (b & Hb & Ib). cbn [fst snd tipe bind] in Hb. injection Hb as <-.
  apply alookup_in; auto. rewrite (mapM_map _ fst (fun f => camel (fst f)) _ _ M).
  - pose proof (check_context _ _ _ _ _ PK c I) as CC. unfold checkContext in CC. apply andb_true_iff in CC as [_ CC]. now apply nodupb_NoDup in CC.
  - intros f b E'. apply bind_ok in E' as (g & _ & E'). now injection E' as <-.
Qed.

Lemma type_sized : forall ctxs k t g, checkType r ctxs k t = true -> tipe camel r t = Ok g -> sized g = true.
Proof.
  intros ctxs k t g C T. assert (B : checkBase r ctxs t = true -> sized g = true) by (intros CB; now destruct (base_sized camel r ctxs t g CB T)).
  destruct t as [sz cst| | | |n|b0 i0|b0 [[rf|i0]|]]; cbn [checkType] in C; auto; cbn [tipe] in T.
  - apply andb_true_iff in C as [C _]. apply bind_ok in T as (n & _ & T). apply bind_ok in T as (h & TB & T). injection T as <-. cbn [sized]. now destruct (base_sized camel r ctxs b0 h C TB).
  - apply bind_ok in T as (h & _ & T). now injection T as <-.
  - apply bind_ok in T as (h & _ & T). now injection T as <-.
  - apply bind_ok in T as (h & _ & T). now injection T as <-.
Qed.
Lemma decl_types : forall s ds, structDecl camel r s = Ok ds -> NoDup (map fst ds) -> forall f g, alookup f ds = Some g ->
  exists nm t, In (nm, t) (flat_map allFields (members_of s)) /\ camel nm = f /\ tipe camel r t = Ok g.
Proof.
  intros s ds H ND f g L. destruct (structDecl_fields _ _ _ _ H) as [DN DT]. pose proof L as L'. apply alookup_some_in in L. pose proof (in_map fst _ _ L) as J. cbn [fst] in J.
  rewrite DN in J. apply in_map_iff in J as (nm & <- & J). rewrite fieldNames_list in J. apply in_map_iff in J as ([nm' t] & E & J). cbn [fst] in E. subst nm'.
  destruct (DT nm t J) as (g' & T & I). apply alookup_in in I; auto. rewrite L' in I. injection I as <-. exists nm, t. auto.
Qed.
Lemma struct_once : forall s ds, In s (definedStructs fs) -> structDecl camel r s = Ok ds -> NoDup (map fst ds).
Proof.
  intros s ds I H. destruct (structDecl_fields _ _ _ _ H) as [DN _]. rewrite DN. pose proof (pk_check _ _ _ _ _ PK s I) as CS. unfold checkStruct in CS.
  apply andb_true_iff in CS as [CS SC]. apply andb_true_iff in CS as [CS CX]. apply andb_true_iff in CS as [CS ND]. now apply nodupb_NoDup in ND.
Qed.
Lemma struct_sized : forall s ds, In s (definedStructs fs) -> structDecl camel r s = Ok ds -> forall f g, alookup f ds = Some g -> sized g = true.
Proof.
  intros s ds I H f g L. destruct (decl_types s ds H (struct_once s ds I H) f g L) as (nm & t & J & _ & T). destruct (struct_types _ _ _ _ _ PK s I nm t J) as [k C]. eapply type_sized; eauto.
Qed.
Lemma struct_sig : forall n t, Struct r n = Some t -> Extern t = false -> sigsOf camel p (camel n) (map (paramK camel) (scontexts t)) /\
  exists fl, alookup (camel n) (ptypes p) = Some fl /\ forall f g, alookup f fl = Some g -> sized g = true.
Proof.
  intros n t H E. destruct (pk_res _ _ _ _ _ PK n t H E) as (<- & I). destruct (gen_struct _ _ _ _ _ PK t I) as (ds & f & ct & Hds & Hf & _ & L1 & L2 & _). split.
  - exists f. split; auto. now rewrite (parse_params _ _ _ _ Hf).
  - exists ds. split; auto. eapply struct_sized; eauto.
Qed.
Lemma params_look : forall xs x, In x xs -> alookup x (paramsK camel xs) = Some (paramK camel x).
Proof.
  induction xs as [|y xs IH]; intros x I; [destruct I|]. unfold paramsK. cbn [map alookup]. destruct (String.eqb_spec x y); [now subst|]. destruct I as [->|I]; [congruence|]. now apply IH.
Qed.

Theorem methods_short : methodsW camel p.
Proof.
  intros ty f L.
  assert (X : exists s, In s (definedStructs fs) /\ parseFunc camel r s = Ok f /\ ty = camel (sname s)).
  { pose proof (pk_gen _ _ _ _ _ PK) as G. unfold genProgram in G. apply bind_ok in G as (cs & Hc & H). apply bind_ok in H as (ss & Hs & H). injection H as E.
    assert (E1 : pmethods p = map (fun x => let '(n, _, f, _) := x in (n, f)) ss) by (rewrite <- E; reflexivity).
    rewrite E1 in L. apply alookup_some_in in L. apply in_map_iff in L as (x & EX & Ix). destruct (mapM_in_r _ _ _ _ Hs Ix) as (s & Is & Hx). unfold structureDecl in Hx.
    apply bind_ok in Hx as (ds & Hds & Hx). apply bind_ok in Hx as (f' & Hf & Hx). apply bind_ok in Hx as (ct & Hct & Hx). injection Hx as <-.
    injection EX as <- <-. eauto. }
  destruct X as (s & D & Hf & ->). pose proof (pk_check _ _ _ _ _ PK s D) as CK. unfold checkStruct in CK. apply andb_true_iff in CK as [CM CK]. unfold checkScope in CK.
  destruct (gen_struct _ _ _ _ _ PK s D) as (ds & f' & ct & Hds & _ & _ & L1 & _ & _).
  unfold parseFunc in Hf. apply bind_ok in Hf as (rv & Hrv & Hf). apply bind_ok in Hf as (ms & Hms & Hf). injection Hf as <-.
  rewrite Hrv in CK. repeat rewrite andb_true_iff in CK. rewrite !negb_true_iff, !memb_notin, disjointb_spec, nodupb_NoDup in CK.
  destruct CK as (((B6 & B7) & B8) & B9). cbn [frecv fparams fbody].
  assert (N1 : rv <> "cur") by (intros ->; apply B6; cbn; auto). assert (N2 : rv <> "data") by (intros ->; apply B6; cbn; auto).
  set (G0 := ("cur", KIn) :: (rv, KTy (GPtr (camel (sname s)))) :: ("data", KIn) :: paramsK camel (scontexts s)).
  assert (S : scopeW camel rv (camel (sname s)) (scontexts s) G0).
  { unfold G0. constructor.
    - apply look_here.
    - rewrite !look_push by congruence. apply look_here.
    - intros x I. rewrite !look_push; [apply params_look; auto| | |]; intros ->; [apply (B7 _ I); cbn; auto|contradiction|apply (B7 _ I); cbn; auto].
    - rewrite look_push by congruence. apply look_here. }
  exists G0. cbn [app]. eapply wCons; [eapply wDecl; apply k_var; rewrite look_push by congruence; apply look_here|]. fold G0.
  destruct (SH s) as [S1 S2]; [now apply filter_In in D as [D DE]; destruct (proj1 (in_flat_map _ _ _) D) as (fl & F1 & F2); split; [destruct (Extern s); [discriminate|reflexivity]|eauto]|].
  eapply wB_app.
  - repeat rewrite andb_true_iff in CM. destruct CM as [[[[_ _] CM] _] _].
    eapply members_w with (r := r) (camel := camel) (ctxs := scontexts s) (rv := rv) (ALL := flat_map allFields (members_of s)) (LR := flat_map lengthRefs (members_of s)) (CT := flat_map countsM (members_of s)) (k := []);
      [|exact Hms|exact CM|exact S|intros nm sz E; discriminate|apply incl_refl|apply incl_refl|apply incl_refl|].
    + intros m _. eapply member_w with (ds := ds).
      * exact struct_sig.
      * exact context_field.
      * exact L1.
      * intros nm t I. destruct (structDecl_fields _ _ _ _ Hds) as [_ DT]. destruct (DT nm t I) as (g & T & J). exists g. split; auto. apply alookup_in; auto. eapply struct_once; eauto.
      * intros f k sz I K RW. destruct (S1 f I) as [A B]. unfold refWidth in RW. destruct (String.eqb_spec (rscope f) "") as [E|E].
        -- destruct (K _ _ RW) as [cst J]. split; [|eauto]. destruct (struct_types _ _ _ _ _ PK s D _ _ J) as [k' C]. cbn [checkType checkBase] in C. unfold checkInt in C.
           apply andb_true_iff in C as [C _]. destruct (goodSize_cases _ C) as [-> |[-> |[-> | ->]]]; lia.
        -- unfold ctxField in RW. destruct (memb (rscope f) (scontexts s)); [|discriminate]. destruct (Context r (rscope f)) as [c|] eqn:EC; [|discriminate].
           destruct (findIntField (rname f) (cmembers c)) as [[sz' cst]| | |] eqn:F; try discriminate. injection RW as ->. apply findIntField_in in F. split; [|eauto].
           destruct (context_in _ _ _ _ _ PK _ _ EC) as [IC _]. pose proof (check_context _ _ _ _ _ PK c IC) as CC. unfold checkContext in CC. apply andb_true_iff in CC as [CC _]. apply andb_true_iff in CC as [CC _].
           rewrite forallb_forall in CC. specialize (CC _ F). cbn in CC. unfold checkInt in CC. repeat rewrite andb_true_iff in CC. destruct (goodSize_cases sz) as [-> |[-> |[-> | ->]]]; try lia; tauto.
      * exact S2.
    + intros m y I J. assert (K : In y ("cur" :: "data" :: "err" :: flat_map localsM (members_of s))) by (do 3 right; apply in_flat_map; eauto).
      split; [intros ->; contradiction|intros K'; eapply B7; eauto].
  - eapply wCons; [|constructor]. eapply wReturn; [apply k_var; apply S|apply k_nil|apply sub_refl|apply sub_nil].
Qed.

Theorem ctors_short : ctorsW camel p.
Proof.
  intros ty f L.
  assert (X : exists s, In s (definedStructs fs) /\ ctorFunc camel s = Ok f /\ ty = camel (sname s)).
  { pose proof (pk_gen _ _ _ _ _ PK) as G. unfold genProgram in G. apply bind_ok in G as (cs & Hc & H). apply bind_ok in H as (ss & Hs & H). injection H as E.
    assert (E1 : pctors p = map (fun x => let '(n, _, _, c) := x in (n, c)) ss) by (rewrite <- E; reflexivity).
    rewrite E1 in L. apply alookup_some_in in L. apply in_map_iff in L as (x & EX & Ix). destruct (mapM_in_r _ _ _ _ Hs Ix) as (s & Is & Hx). unfold structureDecl in Hx.
    apply bind_ok in Hx as (ds & Hds & Hx). apply bind_ok in Hx as (f' & Hf & Hx). apply bind_ok in Hx as (ct & Hct & Hx). injection Hx as <-.
    injection EX as <- <-. eauto. }
  destruct X as (s & D & Hf & ->). pose proof (pk_check _ _ _ _ _ PK s D) as CK. unfold checkStruct in CK. apply andb_true_iff in CK as [CM CK]. unfold checkScope in CK.
  destruct (gen_struct _ _ _ _ _ PK s D) as (ds & f' & ct & Hds & Hf' & _ & L1 & L2 & _).
  unfold ctorFunc in Hf. apply bind_ok in Hf as (rv & Hrv & Hf). injection Hf as <-.
  rewrite Hrv in CK. repeat rewrite andb_true_iff in CK. rewrite !negb_true_iff, !memb_notin, disjointb_spec, nodupb_NoDup in CK.
  destruct CK as (((B6 & B7) & B8) & B9). cbn [frecv fparams fbody].
  assert (N2 : rv <> "data") by (intros ->; apply B6; cbn; auto). assert (N3 : rv <> "err") by (intros ->; apply B6; cbn; auto).
  eexists. eapply wCons; [eapply wDecl; eapply k_new; [exact L1|eapply struct_sized; eauto]|].
  eapply wCons; [eapply wParseDecl|].
  - cbn [lexpr]. apply k_var. apply look_here.
  - apply k_var. rewrite look_push by congruence. apply look_here.
  - exists f'. split; [exact L2|]. rewrite (parse_params _ _ _ _ Hf'). reflexivity.
  - assert (F : forall xs, incl xs (scontexts s) -> Forall2 (hasK (ptypes p) ((rv, KTy (GPtr (camel (sname s)))) :: ("data", KIn) :: paramsK camel (scontexts s))) (map EVar xs) (map (paramK camel) xs)).
    { induction xs as [|x xs IH]; intros I; cbn [map]; constructor; [|apply IH; intros y J; apply I; now right]. apply k_var.
      assert (J : In x (scontexts s)) by (apply I; now left). rewrite !look_push; [now apply params_look| |]; intros ->; [apply (B7 _ J); cbn; auto|contradiction]. }
    apply F. apply incl_refl.
  - eapply wCons; [eapply wIf; [eapply k_notNil; apply k_var; apply look_here|]|].
    + eapply wCons; [|constructor]. eapply wReturn; [apply k_nil|apply k_var; apply look_here|apply sub_nil|apply sub_refl].
    + eapply wCons; [|constructor]. eapply wReturn; [apply k_var; rewrite look_push by congruence; apply look_here|apply k_nil|apply sub_refl|apply sub_nil].
Qed.
End Package.
