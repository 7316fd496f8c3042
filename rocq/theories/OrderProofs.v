(** Rearranged declarations extend each other. *)
From Coq Require Import ZArith String List Bool Permutation Lia.
From Verif Require Import Base Ast IntervalsModel InspectModel InspectSpec InspectProofs BranchProofs GoLang GenModel GenDecode GenCheck GenSimBody WireSpec WireProofs SameSpec SameProofs ExtSpec ExtProofs OrderSpec.
Import ListNotations.
Open Scope string_scope.
Open Scope list_scope.
Open Scope Z_scope.

Definition none (e : string) : Prop := False.

Lemma clash_sym : forall cv c d, clash cv c d -> clash cv d c.
Proof. intros cv c d [[A B]|(x & A & B)]; [left; auto|right; eauto]. Qed.
Lemma apart_perm : forall cv cs cs', Permutation cs cs' -> apart cv cs -> apart cv cs'.
Proof. intros cv cs cs' P. apply ordpairs_perm; auto. intros a b _ _ N C. apply N. now apply clash_sym. Qed.
Lemma apart_split : forall cv l1 c l2 d l3, apart cv (l1 ++ c :: l2 ++ d :: l3) -> ~ clash cv c d.
Proof.
  intros cv. induction l1 as [|a l1 IH]; intros c l2 d l3 H; cbn [app] in H; inversion H as [|? ? F G]; subst; [|eauto].
  rewrite Forall_forall in F. apply F. apply in_or_app. right. now left.
Qed.
Lemma apart_default : forall cv cs, apart cv cs -> one_default cs.
Proof. intros cv cs A l1 c l2 d l3 -> E1 E2. apply (apart_split _ _ _ _ _ _ A). left. auto. Qed.
Lemma takes_apart : forall cv cs x c, apart cv cs ->
  takes cv cs x c <-> In c cs /\ (case_matches cv c x \/ ucase_list c = None /\ Forall (fun d => ~ case_matches cv d x) cs).
Proof.
  intros cv cs x c A. split.
  - intros [(pre & post & -> & M & N)|(N & I & L)]; auto. split; auto. apply in_or_app. right. now left.
  - intros (I & [M|(L & N)]); [|right; auto]. left. apply in_split in I as (pre & post & ->). exists pre, post. split; auto. split; auto.
    apply Forall_forall. intros d D M'. apply in_split in D as (p1 & p2 & ->). rewrite <- app_assoc in A. cbn [app] in A. apply (apart_split _ _ _ _ _ _ A). right. eauto.
Qed.
Lemma takes_perm : forall cv cs cs' x c, apart cv cs -> Permutation cs cs' -> takes cv cs x c <-> takes cv cs' x c.
Proof.
  intros cv cs cs' x c A P. rewrite (takes_apart cv cs x c A), (takes_apart cv cs' x c (apart_perm _ _ _ P A)).
  assert (G : forall l l' : list ucase, Permutation l l' -> In c l /\ (case_matches cv c x \/ ucase_list c = None /\ Forall (fun d => ~ case_matches cv d x) l) ->
    In c l' /\ (case_matches cv c x \/ ucase_list c = None /\ Forall (fun d => ~ case_matches cv d x) l')).
  { intros l l' Q (I & H). split; [eapply Permutation_in; eauto|]. destruct H as [H|(L & N)]; auto. right. split; auto. eapply Permutation_Forall; eauto. }
  split; apply G; auto. now apply Permutation_sym.
Qed.

Section Order.
Variable cv cv' : string -> option Z.

Lemma sameT_ext : forall gone t t', sameT cv cv' t t' -> extT gone cv cv' t t' /\ extT gone cv' cv t' t.
Proof.
  intros gone. induction 1 as [sz c c' S| | | |n|b b' i i' S IH I|b b' c c' S IH I]; try (split; constructor; fail).
  - assert (L : forall x, allows cv c x <-> allows cv' c' x).
    { intros x. destruct c as [l|], c' as [l'|]; cbn [sameLists allows] in *; try contradiction; [apply S|tauto]. }
    split; constructor; (try (intros x; apply L)); right; intros x; apply L.
  - destruct IH as [A B]. split; constructor; auto. destruct I as (v & E & E'). exists v. auto.
  - destruct IH as [A B]. split; constructor; auto. destruct c as [[f|i]|], c' as [[f'|i']|]; cbn in *; auto; try contradiction. destruct I as (v & E & E'). exists v. auto.
Qed.
Lemma sameLengths_sym : forall c c', sameLengths cv cv' c c' -> sameLengths cv' cv c' c.
Proof. intros c c' I. destruct c as [[f|i]|], c' as [[f'|i']|]; cbn in *; auto; try contradiction. destruct I as (v & E & E'). exists v. auto. Qed.

Lemma arrC_list : forall c c', arrC cv cv' c c' -> sameLists cv cv' (ucase_list c) (ucase_list c').
Proof. intros c c' H. destruct H; auto. Qed.
Lemma arrC_members : forall c c', arrC cv cv' c c' -> Forall2 (arrM cv cv') (ucase_members c) (ucase_members c').
Proof. intros c c' H. destruct H; auto. Qed.
Lemma arrC_matches : forall x c c', arrC cv cv' c c' -> case_matches cv c x <-> case_matches cv' c' x.
Proof. intros x c c' H. apply same_matches. now apply arrC_list. Qed.
Lemma arrC_default : forall c c', arrC cv cv' c c' -> ucase_list c = None <-> ucase_list c' = None.
Proof. intros c c' H. apply arrC_list in H. destruct (ucase_list c), (ucase_list c'); cbn in H; try contradiction; split; congruence. Qed.
Lemma arrC_clash : forall c c' d d', arrC cv cv' c c' -> arrC cv cv' d d' -> clash cv' c' d' -> clash cv c d.
Proof.
  intros c c' d d' A B [[E1 E2]|(x & M1 & M2)].
  - left. split; [now apply (arrC_default _ _ A)|now apply (arrC_default _ _ B)].
  - right. exists x. split; [now apply (arrC_matches x _ _ A)|now apply (arrC_matches x _ _ B)].
Qed.
Lemma arrCs_apart : forall cs cs', Forall2 (arrC cv cv') cs cs' -> apart cv cs -> apart cv' cs'.
Proof.
  induction 1 as [|c c' cs cs' A F IH]; intros H; [constructor|]. inversion H as [|? ? H1 H2]; subst. constructor; [|now apply IH].
  clear IH H H2. induction F as [|d d' cs cs' B F IH]; constructor; inversion H1; subst; auto. intros C. apply (arrC_clash _ _ _ _ A B) in C. contradiction.
Qed.
Lemma arrCs_in : forall cs cs', Forall2 (arrC cv cv') cs cs' -> forall c, In c cs -> exists c', In c' cs' /\ arrC cv cv' c c'.
Proof. induction 1 as [|c c' cs cs' A F IH]; intros d I; [destruct I|]. destruct I as [<-|I]; [exists c'; split; auto; now left|]. destruct (IH _ I) as (d' & I' & B). exists d'. split; auto. now right. Qed.
Lemma arrCs_in' : forall cs cs', Forall2 (arrC cv cv') cs cs' -> forall c', In c' cs' -> exists c, In c cs /\ arrC cv cv' c c'.
Proof. induction 1 as [|c c' cs cs' A F IH]; intros d I; [destruct I|]. destruct I as [<-|I]; [exists c; split; auto; now left|]. destruct (IH _ I) as (d' & I' & B). exists d'. split; auto. now right. Qed.
Lemma arrCs_none : forall x cs cs', Forall2 (arrC cv cv') cs cs' -> Forall (fun d => ~ case_matches cv d x) cs <-> Forall (fun d => ~ case_matches cv' d x) cs'.
Proof.
  induction 1 as [|c c' cs cs' A F IH]; [split; constructor|]. pose proof (arrC_matches x _ _ A). split; intros H1; inversion H1; subst; constructor; tauto.
Qed.
Lemma arr_takes : forall cs cs1 cs', apart cv cs -> Forall2 (arrC cv cv') cs cs1 -> Permutation cs1 cs' -> forall x c, takes cv cs x c -> exists c', takes cv' cs' x c' /\ arrC cv cv' c c'.
Proof.
  intros cs cs1 cs' A F P x c T. apply (takes_apart _ _ _ _ A) in T as (I & T). destruct (arrCs_in _ _ F _ I) as (c' & I' & B). exists c'. split; auto.
  apply (takes_perm cv' cs1 cs' x c' (arrCs_apart _ _ F A) P). apply (takes_apart _ _ _ _ (arrCs_apart _ _ F A)). split; auto.
  destruct T as [M|(L & N)]; [left; now apply (arrC_matches x _ _ B)|]. right. split; [now apply (arrC_default _ _ B)|now apply (arrCs_none x cs cs1 F)].
Qed.
Lemma arr_takes' : forall cs cs1 cs', apart cv cs -> Forall2 (arrC cv cv') cs cs1 -> Permutation cs1 cs' -> forall x c', takes cv' cs' x c' -> exists c, takes cv cs x c /\ arrC cv cv' c c'.
Proof.
  intros cs cs1 cs' A F P x c' T. apply (takes_perm cv' cs1 cs' x c' (arrCs_apart _ _ F A) P) in T. apply (takes_apart _ _ _ _ (arrCs_apart _ _ F A)) in T as (I & T).
  destruct (arrCs_in' _ _ F _ I) as (c & I' & B). exists c. split; auto. apply (takes_apart _ _ _ _ A). split; auto.
  destruct T as [M|(L & N)]; [left; now apply (arrC_matches x _ _ B)|]. right. split; [now apply (arrC_default _ _ B)|now apply (arrCs_none x cs cs1 F)].
Qed.

Lemma arr_ext0 : forall ms ms', Forall2 (arrM cv cv') ms ms' ->
  Forall (fun m => forall m', arrM cv cv' m m' -> extM none cv cv' m m' /\ extM none cv' cv m' m) ms ->
  Forall2 (extM none cv cv') ms ms' /\ Forall2 (extM none cv' cv) ms' ms.
Proof.
  induction 1 as [|m m' ms ms' A F IH]; intros H; [split; constructor|]. destruct (IH (Forall_inv_tail H)) as [X Y]. destruct (Forall_inv H _ A) as [X1 Y1]. split; constructor; auto.
Qed.
Lemma arr_ext : forall m m', arrM cv cv' m m' -> extM none cv cv' m m' /\ extM none cv' cv m' m.
Proof.
  induction m as [nm t|u tag len cs IH| | |] using member_ind'; intros m' H; inversion H as [? ? t' ST|? u' ? ? len' ? cs1 cs' SL A F P| | |]; subst; try (split; constructor; fail).
  - destruct (sameT_ext none _ _ ST). split; now constructor.
  - rewrite Forall_forall in IH.
    assert (M : forall c c', In c cs -> arrC cv cv' c c' -> Forall2 (extM none cv cv') (ucase_members c) (ucase_members c') /\ Forall2 (extM none cv' cv) (ucase_members c') (ucase_members c)).
    { intros c c' I B. apply arr_ext0; [now apply arrC_members|exact (IH _ I)]. }
    assert (In1 : forall x c, takes cv cs x c -> In c cs) by (intros x c T; apply (takes_apart _ _ _ _ A) in T; tauto).
    assert (A' : apart cv' cs') by (eapply apart_perm; [exact P|eapply arrCs_apart; eauto]).
    pose proof (apart_default _ _ A) as OD. pose proof (apart_default _ _ A') as OD'.
    split; constructor; auto using sameLengths_sym.
    + intros x c T. right. destruct (arr_takes _ _ _ A F P x c T) as (c' & T' & B). split; [eauto|]. intros d T2. rewrite (takes_unique _ _ _ _ _ OD' T2 T'). apply M; eauto.
    + intros x N c' T. destruct (arr_takes' _ _ _ A F P x c' T) as (c & T' & B). exact (N _ T').
    + intros x c' T. right. destruct (arr_takes' _ _ _ A F P x c' T) as (c & T' & B). split; [eauto|]. intros d T2. rewrite (takes_unique _ _ _ _ _ OD T2 T'). apply M; eauto.
    + intros x N c T. destruct (arr_takes _ _ _ A F P x c T) as (c' & T' & B). exact (N _ T').
Qed.

Definition fieldsBoth (fl fl' : list (string * type)) : Prop :=
  (forall nm t, In (nm, t) fl -> exists t', In (nm, t') fl' /\ sameT cv cv' t t') /\ (forall nm t', In (nm, t') fl' -> exists t, In (nm, t) fl /\ sameT cv cv' t t').
Lemma both_app : forall a a' b b', fieldsBoth a a' -> fieldsBoth b b' -> fieldsBoth (a ++ b) (a' ++ b').
Proof.
  intros a a' b b' [A A'] [B B']. split; intros nm t I; apply in_app_or in I as [I|I].
  - destruct (A _ _ I) as (t' & X & Y). exists t'. rewrite in_app_iff. auto.
  - destruct (B _ _ I) as (t' & X & Y). exists t'. rewrite in_app_iff. auto.
  - destruct (A' _ _ I) as (t' & X & Y). exists t'. rewrite in_app_iff. auto.
  - destruct (B' _ _ I) as (t' & X & Y). exists t'. rewrite in_app_iff. auto.
Qed.
Lemma arr_fields0 : forall ms ms', Forall2 (arrM cv cv') ms ms' -> Forall (fun m => forall m', arrM cv cv' m m' -> fieldsBoth (allFields m) (allFields m')) ms ->
  fieldsBoth (flat_map allFields ms) (flat_map allFields ms').
Proof.
  induction 1 as [|m m' ms ms' A F IH]; intros H; [split; intros ? ? []|]. cbn [flat_map]. apply both_app; [exact (Forall_inv H _ A)|exact (IH (Forall_inv_tail H))].
Qed.
Lemma arr_fields : forall m m', arrM cv cv' m m' -> fieldsBoth (allFields m) (allFields m').
Proof.
  induction m as [nm t|u tag len cs IH| | |] using member_ind'; intros m' H; inversion H as [? ? t' ST|? u' ? ? len' ? cs1 cs' SL A F P| | |]; subst; try (split; intros ? ? []; fail).
  - split; intros n x [E|[]]; injection E as <- <-; eexists; (split; [now left|exact ST]).
  - cbn [allFields]. rewrite Forall_forall in IH. set (g := fun c => match c with UCase _ ms => flat_map allFields ms end).
    assert (X : forall c c', In c cs -> arrC cv cv' c c' -> fieldsBoth (g c) (g c')).
    { intros c c' I B. pose proof (IH _ I) as Q. apply arrC_members in B. destruct c as [l ms], c' as [l' ms']. cbn [g ucase_members] in *. now apply arr_fields0. }
    split; intros nm t I; apply in_flat_map in I as (c & I & J).
    + destruct (arrCs_in _ _ F _ I) as (c' & I' & B). destruct (proj1 (X _ _ I B) _ _ J) as (t' & J' & S). exists t'. split; auto. apply in_flat_map. exists c'. split; auto. eapply Permutation_in; eauto.
    + destruct (arrCs_in' _ _ F c) as (c0 & I' & B); [eapply Permutation_in; [apply Permutation_sym; eauto|auto]|]. destruct (proj2 (X _ _ I' B) _ _ J) as (t' & J' & S). exists t'. split; auto. apply in_flat_map. exists c0. auto.
Qed.
Lemma arr_struct : forall s s', arrStruct cv cv' s s' -> extStruct none cv cv' s s' /\ extStruct none cv' cv s' s.
Proof.
  intros s s' (N & C & X & X' & F). destruct (arr_ext0 _ _ F) as [A B]; [apply Forall_forall; intros; now apply arr_ext|].
  destruct (arr_fields0 _ _ F) as [K K']; [apply Forall_forall; intros; now apply arr_fields|].
  split; (split; [auto|split; [auto|split; [auto|split; [auto|]]]]); intros nm t I.
  - destruct (K _ _ I) as (t' & J & S). exists t'. split; auto. now apply (sameT_ext none).
  - destruct (K' _ _ I) as (t' & J & S). exists t'. split; auto. now apply (sameT_ext none).
Qed.
Lemma arr_extended : forall fs fs', rearranged cv cv' fs fs' -> extended none cv cv' fs fs' /\ extended none cv' cv fs' fs.
Proof.
  intros fs fs' [A B C]. split; constructor.
  - intros f s I J X. destruct (A f s I J X) as (f' & s' & I' & J' & S). exists f', s'. split; auto. split; auto. now apply arr_struct.
  - intros f c I J. apply C. eauto.
  - intros f s I J X. destruct (B f s I J X) as (f' & s' & I' & J' & S). exists f', s'. split; auto. split; auto. now apply arr_struct.
  - intros f c I J. apply C. eauto.
Qed.
End Order.
