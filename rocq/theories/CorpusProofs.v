(** Names of corpus files, and lookup. *)
From Coq Require Import ZArith String Ascii List Bool Lia ZifyBool ZifyNat.
From Verif Require Import Base Ast InspectModel InspectSpec InspectProofs GoLang GenModel GenSimProg TvModel TvFacts CorpusModel CorpusSpec.
Import ListNotations.
Open Scope string_scope.
Open Scope list_scope.
Open Scope Z_scope.
Ltac Zify.zify_post_hook ::= Z.div_mod_to_equations.

Lemma hex_char : forall d, 0 <= d < 16 -> hexIs (hexChar d) d.
Proof.
  intros d H. split; [lia|].
  assert (C : d = 0 \/ d = 1 \/ d = 2 \/ d = 3 \/ d = 4 \/ d = 5 \/ d = 6 \/ d = 7 \/ d = 8 \/ d = 9 \/ d = 10 \/ d = 11 \/ d = 12 \/ d = 13 \/ d = 14 \/ d = 15) by lia.
  repeat (destruct C as [->|C]; [vm_compute; reflexivity|]). subst. vm_compute. reflexivity.
Qed.
Lemma hexDigits_once : NoDup hexDigits.
Proof. repeat constructor; cbn; intuition discriminate. Qed.
Lemma hexIs_fun : forall c d d', hexIs c d -> hexIs c d' -> d = d'.
Proof.
  intros c d d' [A B] [A' B']. assert (E : Z.to_nat d = Z.to_nat d'); [|lia].
  apply (proj1 (NoDup_nth_error hexDigits) hexDigits_once).
  - apply nth_error_Some. congruence.
  - congruence.
Qed.
Lemma hexIs_range : forall c d, hexIs c d -> 0 <= d < 16 /\ In c hexDigits.
Proof.
  intros c d [A B]. split.
  - assert (X : (Z.to_nat d < 16)%nat) by (change 16%nat with (List.length hexDigits); apply nth_error_Some; congruence). lia.
  - eapply nth_error_In; eauto.
Qed.
Lemma hexes_fun : forall s b, hexes s b -> forall b', hexes s b' -> b = b'.
Proof.
  intros s b H. induction H as [|c d c' d' s b A B H IH]; intros b2 H2; inversion H2; subst; auto.
  f_equal; auto. rewrite (hexIs_fun c d d0), (hexIs_fun c' d' d'0); auto.
Qed.
Lemma encode_hexes : forall b, all_bytes b -> hexes (EncodeToString b) b.
Proof.
  induction b as [|x b IH]; intros A; [constructor|]. inversion A as [|? ? X A']; subst. unfold is_byte in X. cbn [EncodeToString].
  replace (x :: b) with (16 * (x / 16) + x mod 16 :: b) by (f_equal; lia).
  constructor; [apply hex_char; lia|apply hex_char; lia|auto].
Qed.
Lemma sum_shape : forall b, List.length (Sum256 b) = 32%nat /\ all_bytes (Sum256 b).
Proof.
  intros b. unfold Sum256. set (s := blocks _ _ _). clearbody s. split; [reflexivity|].
  apply Forall_forall. intros x I. apply in_flat_map in I as (w & _ & I). unfold bytesOf in I. unfold is_byte.
  cbn [In] in I. destruct I as [<-|[<-|[<-|[<-|[]]]]]; apply Z.mod_pos_bound; lia.
Qed.
Lemma hexes_chars : forall s b, hexes s b -> String.length s = (2 * List.length b)%nat /\ forall c, In c (list_ascii_of_string s) -> In c hexDigits.
Proof.
  intros s b H. induction H as [|c d c' d' s b A B H [IH1 IH2]]; [split; [reflexivity|intros c []]|]. split.
  - cbn [String.length List.length]. lia.
  - cbn [list_ascii_of_string]. intros x [<-|[<-|I]]; [apply (hexIs_range _ _ A)|apply (hexIs_range _ _ B)|auto].
Qed.

Lemma lookup_in : forall c n vs, Vectors c n = Some vs -> exists s, In s c /\ stype s = n /\ svectors s = vs.
Proof.
  induction c as [|s c IH]; intros n vs H; [discriminate|]. cbn [Vectors] in H. destruct (String.eqb_spec (stype s) n) as [E|E].
  - injection H as <-. exists s. split; [now left|auto].
  - destruct (IH _ _ H) as (s' & I & X). exists s'. split; [now right|auto].
Qed.
Lemma lookup_none : forall c n, Vectors c n = None <-> ~ In n (map stype c).
Proof.
  induction c as [|s c IH]; intros n; cbn [Vectors map In]; [tauto|]. destruct (String.eqb_spec (stype s) n) as [E|E].
  - split; [discriminate|]. intros N. exfalso. apply N. now left.
  - rewrite IH. tauto.
Qed.
Lemma lookup_once : forall c s, NoDup (map stype c) -> In s c -> Vectors c (stype s) = Some (svectors s).
Proof.
  induction c as [|t c IH]; intros s ND I; [destruct I|]. cbn [Vectors map] in *. inversion ND as [|? ? N ND']; subst.
  destruct I as [->|I]; [now rewrite String.eqb_refl|]. destruct (String.eqb_spec (stype t) (stype s)) as [E|E]; auto.
  exfalso. apply N. rewrite E. now apply in_map.
Qed.

Lemma nodup_filter : forall {A B} (key : A -> B) p l, NoDup (map key l) -> NoDup (map key (filter p l)).
Proof.
  intros A B key p. induction l as [|a l IH]; intros ND; [constructor|]. cbn [map] in ND. inversion ND; subst. cbn [filter].
  destruct (p a); auto. cbn [map]. constructor; auto. intros I. apply in_map_iff in I as (x & E & I). apply filter_In in I as [I _].
  apply H1. rewrite <- E. now apply in_map.
Qed.
Lemma nodup_app : forall {A} (a b : list A), NoDup a -> NoDup b -> (forall x, In x a -> ~ In x b) -> NoDup (a ++ b).
Proof.
  induction a as [|x a IH]; intros b NA NB D; auto. inversion NA; subst. cbn [app]. constructor.
  - intros I. apply in_app_or in I as [I|I]; [contradiction|]. apply (D x); auto. now left.
  - apply IH; auto. intros y I. apply D. now right.
Qed.
Lemma defined_once : forall fs, Forall self_ok fs -> ForallOrdPairs may_follow fs -> NoDup (map sname (definedStructs fs)).
Proof.
  unfold definedStructs. induction fs as [|f fs IH]; intros F P; [constructor|]. inversion F as [|? ? [S _] F']; subst. inversion P as [|? ? M P']; subst.
  cbn [flat_map]. rewrite filter_app, map_app. apply nodup_app; auto using nodup_filter.
  intros n I J. apply in_map_iff in I as (s & <- & I). apply in_map_iff in J as (t & E & J). apply filter_In in I as [I X]. apply filter_In in J as [J _].
  apply in_flat_map in J as (g & G & J). rewrite Forall_forall in M. destruct (M g G) as [MF _].
  rewrite (MF s t I J) in X by auto. discriminate X.
Qed.
Lemma corpus_once : forall grow ords sel os n fs rn c, GenerateFiles grow ords sel os n fs rn = Ok c -> all_valid os -> NoDup (map stype c).
Proof.
  intros grow ords sel os n fs rn c H V. rewrite (files_suites _ _ _ _ _ _ _ _ H). unfold GenerateFiles in H.
  destruct (NewResolverFiles os fs) as [r| | |] eqn:E; try discriminate.
  destruct (proj1 (resolver_accepts_iff os fs V) (ex_intro _ r E)) as [A B]. now apply defined_once.
Qed.
