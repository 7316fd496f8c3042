(** Variables declared by the generated code. *)
From Coq Require Import ZArith String List Bool Lia.
From Verif Require Import Base Ast IntervalsModel InspectModel InspectSpec InspectProofs GoLang GenModel GenCheck GenSim GenSimBody GenSimProg
  PackageSpec PackageProofs ScopeSpec CompileProofs.
Import ListNotations.
Open Scope string_scope.
Open Scope list_scope.
Open Scope Z_scope.

Lemma tidy_all : forall ss, NoDup (flat_map declares ss) -> Forall tidy ss -> tidyBlock ss.
Proof. intros ss N F. constructor; auto. now apply Forall_forall. Qed.
Lemma tidy_ret : forall m, tidyBlock [retErr m].
Proof. intros m. apply tidy_all; [constructor|]. repeat constructor. Qed.
Lemma tidy_length : forall e, tidy (lengthCheck e).
Proof. intros. constructor. apply tidy_ret. Qed.
Lemma tidy_end : tidy assertEnd.
Proof. constructor. apply tidy_ret. Qed.
Lemma declaredIn_app : forall a b, flat_map declaredIn (a ++ b) = flat_map declaredIn a ++ flat_map declaredIn b.
Proof. intros. apply flat_map_app. Qed.

Section Gen.
Variable camel : string -> string.
Variable r : resolver.
Variable rv : string.

Lemma int_decl : forall lhs sz cst ss, parseIntType r lhs sz cst = Ok ss -> flat_map declaredIn ss = [] /\ flat_map declares ss = [] /\ Forall tidy ss.
Proof.
  intros lhs sz cst ss H. unfold parseIntType in H. apply bind_ok in H as (chk & Hc & H). injection H as <-.
  assert (X : flat_map declaredIn chk = [] /\ flat_map declares chk = [] /\ Forall tidy chk).
  { destruct cst; [|injection Hc as <-; repeat constructor]. apply bind_ok in Hc as (c & Hc & E). injection E as <-.
    split; [reflexivity|]. split; [reflexivity|]. constructor; [|constructor]. constructor. apply tidy_ret. }
  destruct X as (X1 & X2 & X3). cbn [flat_map app].
  destruct (sz / 8 =? 1); cbn [declaredIn declares app]; rewrite !flat_map_app, X1, X2;
    (split; [reflexivity|split; [reflexivity|]]); (constructor; [apply tidy_length|constructor; [constructor|]]);
    apply Forall_app; split; auto; repeat constructor.
Qed.

Lemma constrained_decl : forall c body ss, constrained camel r rv c body = Ok ss -> flat_map declares body = [] -> Forall tidy body ->
  flat_map declaredIn ss = "restore" :: flat_map declaredIn body /\ flat_map declares ss = ["restore"] /\ Forall tidy ss.
Proof.
  intros c body ss H D F. unfold constrained in H. apply bind_ok in H as ([chk n] & Hc & H). injection H as <-.
  assert (X : exists e, chk = lengthCheck e).
  { destruct c; [injection Hc as <- <-; eauto|]. apply bind_ok in Hc as (k & _ & E). injection E as <- <-. eauto. }
  destruct X as (e & ->). cbn [flat_map app declaredIn declares lengthCheck retErr]. rewrite !flat_map_app, D. cbn. rewrite !app_nil_r.
  split; [reflexivity|]. split; [reflexivity|]. constructor; [apply tidy_length|]. constructor; [constructor|]. constructor; [constructor|].
  apply Forall_app. split; auto. constructor; [apply tidy_end|]. repeat constructor.
Qed.

Lemma type_decl : forall t lhs ss, parseType camel r rv lhs t = Ok ss ->
  incl (flat_map declaredIn ss) (localsT t) /\ NoDup (flat_map declares ss) /\ Forall tidy ss /\ ~ In "tmp" (flat_map declares ss).
Proof.
  induction t as [sz cst| | | |n|b IH i|b IH c]; intros lhs ss H; cbn [parseType localsT] in *.
  - destruct (int_decl _ _ _ _ H) as (-> & -> & F). repeat split; auto; [apply incl_refl|constructor].
  - destruct (int_decl _ _ _ _ H) as (-> & -> & F). repeat split; auto; [apply incl_refl|constructor].
  - injection H as <-. cbn. repeat split; auto; [apply incl_refl|constructor|repeat constructor].
  - injection H as <-. cbn [flat_map declaredIn declares app retErr]. split; [apply incl_refl|]. split; [constructor; [intros []|constructor]|].
    split; [|intros [E|[]]; discriminate]. constructor; [constructor|]. constructor; [constructor; apply tidy_ret|]. repeat constructor.
  - destruct (Struct r n) as [s|]; [|discriminate]. injection H as <-. cbn [flat_map declaredIn declares app].
    split; [apply incl_refl|]. split; [constructor; [intros []|constructor]|]. split; [|intros [E|[]]; discriminate].
    constructor; [constructor|]. constructor; [constructor|]. constructor; [constructor|]. constructor; [|constructor]. constructor.
    apply tidy_all; [constructor|repeat constructor].
  - apply bind_ok in H as (k & Hk & H). apply bind_ok in H as (body & Hb & H). injection H as <-. destruct (IH _ _ Hb) as (A & B & C & _).
    cbn [flat_map declaredIn declares app]. rewrite app_nil_r. split; [|split; [constructor|split; [|intros []]]].
    + intros y [<-|J]; [cbn; auto|]. right. auto.
    + constructor; [|constructor]. constructor. now apply tidy_all.
  - assert (W : forall g body l e, parseType camel r rv (LVar "tmp") b = Ok body ->
      let w := SWhile (EBin BGt (ELen cur) (EInt 0)) ([SVar "tmp" g] ++ body ++ [SAssign l e]) in
      incl (declaredIn w) ("tmp" :: localsT b) /\ tidy w).
    { intros g body l e Hb w. destruct (IH _ _ Hb) as (A & B & C & D). unfold w. cbn [declaredIn app flat_map]. rewrite flat_map_app. cbn. rewrite !app_nil_r. split.
      - intros y [<-|J]; [cbn; auto|]. right. auto.
      - constructor. apply tidy_all.
        + cbn [flat_map declares app]. rewrite flat_map_app. cbn [flat_map declares app]. rewrite app_nil_r. now constructor.
        + constructor; [constructor|]. apply Forall_app. split; auto. repeat constructor. }
    destruct c as [[f|i]|].
    + apply bind_ok in H as (g & Hg & H). apply bind_ok in H as (body & Hb & H). injection H as <-. destruct (IH _ _ Hb) as (A & B & C & _).
      cbn [flat_map declaredIn declares app]. rewrite app_nil_r. split; [|split; [constructor|split; [|intros []]]].
      * intros y [<-|J]; [cbn; auto|]. right. auto.
      * constructor; [constructor|]. constructor; [|constructor]. constructor. now apply tidy_all.
    + apply bind_ok in H as (g & Hg & H). apply bind_ok in H as (body & Hb & H).
      destruct (W g body lhs (EAppend (lexpr lhs) (EVar "tmp")) Hb) as [W1 W2].
      destruct (constrained_decl _ _ _ H) as (X1 & X2 & X3); [reflexivity|constructor; [constructor|constructor; auto]|].
      rewrite X1, X2. split; [|split; [|split]]; auto.
      * cbn [flat_map]. rewrite app_nil_r. change (declaredIn (SAssign lhs (EMake g (EInt 0)))) with (@nil string). cbn [app].
        intros y [<-|J]; [cbn; auto|]. right. exact (W1 y J).
      * constructor; [intros []|constructor].
      * intros [E|[]]. discriminate.
    + apply bind_ok in H as (g & Hg & H). apply bind_ok in H as (body & Hb & H). injection H as <-.
      destruct (W g body lhs (EAppend (lexpr lhs) (EVar "tmp")) Hb) as [W1 W2]. split; [|split; [constructor|split; [|intros []]]].
      * cbn [flat_map]. rewrite app_nil_r. exact W1.
      * constructor; [constructor|constructor; auto].
Qed.

Definition memberDeclOk (m : member) : Prop := forall st, parseMember camel r rv m = Ok st ->
  incl (declaredIn st) (localsM m) /\ declares st = [] /\ tidy st.
Lemma members_decl : forall ms, Forall memberDeclOk ms -> forall ss, mapM (parseMember camel r rv) ms = Ok ss ->
  incl (flat_map declaredIn ss) (flat_map localsM ms) /\ flat_map declares ss = [] /\ Forall tidy ss.
Proof.
  induction ms as [|m ms IH]; intros A ss P; cbn [mapM] in P.
  - injection P as <-. repeat split; auto. apply incl_refl.
  - apply bind_ok in P as (st & Hst & P). apply bind_ok in P as (ss' & Hss & P). injection P as <-.
    destruct (Forall_inv A st Hst) as (X1 & X2 & X3). destruct (IH (Forall_inv_tail A) ss' Hss) as (Y1 & Y2 & Y3).
    cbn [flat_map]. rewrite X2, Y2. repeat split; auto. apply incl_app; [apply incl_appl|apply incl_appr]; auto.
Qed.
Lemma cases_decl : forall tag cs cases, Forall (fun c => Forall memberDeclOk (ucase_members c)) cs -> pcases camel rv r tag cs = Ok cases ->
  incl (flat_map (fun c => flat_map declaredIn (snd c)) cases) (flat_map (fun c => match c with UCase _ ms => flat_map localsM ms end) cs) /\
  forall c, In c cases -> tidyBlock (snd c).
Proof.
  intros tag. induction cs as [|[l ms] cs IH]; intros cases A P; cbn [pcases] in P.
  - injection P as <-. split; [apply incl_refl|intros c []].
  - assert (B : forall b, pmembers camel rv r ms = Ok b -> incl (flat_map declaredIn b) (flat_map localsM ms) /\ tidyBlock b).
    { intros b Hb. rewrite pmembers_eq in Hb. destruct (members_decl ms (Forall_inv A) b Hb) as (X1 & X2 & X3). split; auto.
      apply tidy_all; auto. rewrite X2. constructor. }
    assert (FIN : forall c b rest, pmembers camel rv r ms = Ok b -> pcases camel rv r tag cs = Ok rest ->
      incl (flat_map (fun c => flat_map declaredIn (snd c)) ((c, b) :: rest)) (flat_map (fun c => match c with UCase _ ms => flat_map localsM ms end) (UCase l ms :: cs)) /\
      forall d, In d ((c, b) :: rest) -> tidyBlock (snd d)).
    { intros c b rest Hb Hr. destruct (B b Hb) as [B1 B2]. destruct (IH rest (Forall_inv_tail A) Hr) as [I1 I2]. split.
      - cbn [flat_map snd]. apply incl_app; [apply incl_appl|apply incl_appr]; auto.
      - intros d [<-|J]; auto. }
    destruct l as [l|].
    + apply bind_ok in P as (c & Hc & P). apply bind_ok in P as (b & Hb & P). apply bind_ok in P as (rest & Hr & P). injection P as <-. auto.
    + apply bind_ok in P as (b & Hb & P). apply bind_ok in P as (rest & Hr & P). injection P as <-. auto.
Qed.
Lemma member_decl : forall m, memberDeclOk m.
Proof.
  induction m as [nm t|u tag len cs IH| | |] using member_ind'; intros st P.
  - cbn [parseMember] in P. apply bind_ok in P as (b & Hb & P). injection P as <-. destruct (type_decl _ _ _ Hb) as (A & B & C & _).
    split; [exact A|]. split; [reflexivity|]. constructor. now apply tidy_all.
  - cbn [parseMember] in P. apply bind_ok in P as (cases & Hcs & P). change (pcases camel rv r tag cs = Ok cases) in Hcs.
    destruct (cases_decl tag cs cases IH Hcs) as [X1 X2].
    assert (TS : tidy (SSwitch cases)) by (constructor; auto). destruct len as [c|].
    + apply bind_ok in P as (b & Hb & P). injection P as <-.
      destruct (constrained_decl _ _ _ Hb) as (Y1 & Y2 & Y3); [reflexivity|constructor; auto|].
      split; [|split; [reflexivity|]].
      * cbn [declaredIn localsM]. rewrite Y1. cbn [flat_map app]. rewrite app_nil_r. intros y [<-|J]; [cbn; auto|]. right. apply X1. exact J.
      * constructor. apply tidy_all; auto. rewrite Y2. constructor; [intros []|constructor].
    + injection P as <-. split; [|split; [reflexivity|]].
      * cbn [declaredIn localsM flat_map app]. rewrite app_nil_r. exact X1.
      * constructor. apply tidy_all; [constructor|constructor; auto].
  - cbn [parseMember] in P. injection P as <-. split; [apply incl_refl|]. split; [reflexivity|]. constructor. apply tidy_all; [constructor|constructor; [apply tidy_end|constructor]].
  - cbn [parseMember] in P. injection P as <-. split; [apply incl_refl|]. split; [reflexivity|]. constructor. apply tidy_ret.
  - cbn [parseMember] in P. injection P as <-. split; [apply incl_refl|]. split; [reflexivity|]. constructor. apply tidy_all; [constructor|repeat constructor].
Qed.
End Gen.

(** Parse methods of a package. *)
Theorem no_capture : forall camel os fs r p, package camel os fs r p -> forall s, defines fs s ->
  exists f rest, alookup (camel (sname s)) (pmethods p) = Some f /\ fparams f = scontexts s /\
    fbody f = SDecl "cur" (EVar "data") :: rest /\
    NoDup (frecv f :: "data" :: "cur" :: fparams f) /\
    (forall x, In x (frecv f :: "data" :: "cur" :: fparams f) -> ~ In x (flat_map declaredIn rest)) /\
    tidyBlock (fbody f).
Proof.
  intros camel os fs r p PK s D. apply defines_in in D.
  destruct (program_struct camel r fs p (pk_gen _ _ _ _ _ PK) (pk_checked _ _ _ _ _ PK) s D) as (ds & f & ct & _ & Hf & _ & _ & L & _).
  pose proof (pk_check _ _ _ _ _ PK s D) as CK. unfold checkStruct in CK. apply andb_true_iff in CK as [_ CK]. unfold checkScope in CK.
  unfold parseFunc in Hf. apply bind_ok in Hf as (rv & Hrv & Hf). apply bind_ok in Hf as (ms & Hms & Hf). injection Hf as <-.
  rewrite Hrv in CK. repeat rewrite andb_true_iff in CK. rewrite !negb_true_iff, !memb_notin, disjointb_spec, nodupb_NoDup in CK.
  destruct CK as (((B6 & B7) & B8) & B9). set (locs := "cur" :: "data" :: "err" :: flat_map localsM (members_of s)) in *.
  destruct (members_decl camel r rv (members_of s)) with (ss := ms) as (X1 & X2 & X3); auto.
  { apply Forall_forall. intros m _. apply member_decl. }
  exists (mkFunc rv (scontexts s) (SDecl "cur" (EVar "data") :: ms ++ [SReturn cur ENil])), (ms ++ [SReturn cur ENil]). cbn [frecv fparams fbody].
  split; auto. split; auto. split; auto. split; [|split].
  - constructor; [|constructor; [|constructor; auto]].
    + intros [E|[E|J]]; auto; apply B6; rewrite <- E; cbn; auto.
    + intros [E|J]; [discriminate|]. apply (B7 _ J). cbn. auto.
    + intros J. apply (B7 _ J). cbn. auto.
  - intros x J K. rewrite flat_map_app in K. cbn in K. rewrite app_nil_r in K. apply X1 in K.
    assert (N : forall y, In y (flat_map localsM (members_of s)) -> y <> "cur" /\ y <> "data").
    { intros y I. apply in_flat_map in I as (m & _ & I).
      assert (Z : In y ["err"; "i"; "idx"; "tmp"; "restore"]).
      { clear - I. revert y I. induction m as [nm t|u tag len cs IH| | |] using member_ind'; intros y H; cbn [localsM] in H; try contradiction.
        - clear - H. induction t as [| | | | |b IH i|b IH [[f|i]|]]; cbn [localsT] in H; try contradiction.
          + destruct H as [<-|[]]; cbn; tauto.
          + destruct H as [<-|[]]; cbn; tauto.
          + destruct H as [<-|H]; [cbn; tauto|auto].
          + destruct H as [<-|H]; [cbn; tauto|auto].
          + destruct H as [<-|[<-|H]]; [cbn; tauto|cbn; tauto|auto].
          + destruct H as [<-|H]; [cbn; tauto|auto].
        - apply in_app_or in H as [H|H].
          + destruct len; [destruct H as [<-|[]]; cbn; tauto|destruct H].
          + apply in_flat_map in H as ([l ms] & I & H). apply in_flat_map in H as (m & J & H). rewrite Forall_forall in IH. specialize (IH _ I).
            cbn [ucase_members] in IH. rewrite Forall_forall in IH. eauto. }
      cbn [In] in Z. decompose [or] Z; try contradiction; subst; split; discriminate. }
    destruct (N x K) as [N1 N2]. cbn [In] in J. destruct J as [<-|[<-|[<-|J]]]; try congruence.
    + apply B6. unfold locs. cbn. auto.
    + apply (B7 x J). unfold locs. cbn. auto.
  - apply tidy_all.
    + cbn [flat_map declares app]. rewrite flat_map_app, X2. cbn. constructor; [intros []|constructor].
    + constructor; [constructor|]. apply Forall_app. split; auto. repeat constructor.
Qed.
