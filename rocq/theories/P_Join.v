(** C72: a source may be cut between declarations, and sources may be joined.

    [returns data (Ok f)]: [parse.String] returns the file [f] for the bytes
    [data] (P_Syntax.v).  [both f g h] (PegJoin.v): the declarations of [h] are
    those of [f] and those of [g].  [semicolonFirst cs]: the first character of
    [cs] that is not blank or in a comment is a semicolon. *)
From Coq Require Import ZArith String Ascii List Bool Lia Permutation.
From Verif Require Import PegModel PegGrammar PegTop SyntaxSpec PegUtf8 PegExact PegJoin.
From Verif Require Import Base Ast IntervalsModel InspectModel InspectSpec InspectProofs GoLang GenModel GenCheck WireSpec
  PackageSpec PackageProofs SameSpec GenExamples P_Same Moved.
Import ListNotations.
Open Scope string_scope.
Open Scope list_scope.
Open Scope Z_scope.

Definition newline : text := [ascii_of_nat 10].
Lemma newline_utf8 : newline = utf8 [10].
Proof. reflexivity. Qed.

(* ---------- source texts ---------- *)

(** Two sources that are accepted, one after the other, are accepted; the
    declarations are those of both. *)
Theorem C72_joined : forall a b f g, returns a (Ok f) -> returns b (Ok g) ->
  exists h, returns (a ++ newline ++ b) (Ok h) /\ both f g h.
Proof.
  intros a b f g A B. apply returns_denotes in A. apply returns_denotes in B. destruct (denotes_join a b f g A B) as (h & D & H).
  exists h. split; auto. now apply returns_denotes.
Qed.
Print Assumptions C72_joined.
(** Conversely, when a source is cut after a part that is accepted by itself,
    the other part is accepted by itself. *)
Theorem C72_cut : forall a cs f h, Forall scalar cs -> returns a (Ok f) -> returns (a ++ newline ++ utf8 cs) (Ok h) -> ~ semicolonFirst cs ->
  exists g, returns (utf8 cs) (Ok g) /\ both f g h.
Proof.
  intros a cs f h S A H N. apply returns_denotes in A. apply returns_denotes in H. destruct (denotes_split a cs f h S A H N) as (g & D & B).
  exists g. split; auto. now apply returns_denotes.
Qed.
Print Assumptions C72_cut.
(** The proviso is needed: the semicolon after a declaration may be missing, but
    cannot stand at the beginning. *)
Theorem C72_cut_refuted : exists a cs f h, Forall scalar cs /\ returns a (Ok f) /\ returns (a ++ newline ++ utf8 cs) (Ok h) /\ returns (utf8 cs) failed.
Proof.
  exists (textOf "struct x {}"), [59], (mkFile [] [] [mkStruct "x" [] (Some [])] []), (mkFile [] [] [mkStruct "x" [] (Some [])] []).
  split; [repeat constructor; unfold scalar; lia|].
  split; [apply (returns_some _ 2000%nat); vm_compute; reflexivity|]. split; apply (returns_some _ 2000%nat); vm_compute; reflexivity.
Qed.
Print Assumptions C72_cut_refuted.
(** Nor does it do to join sources without a line break. *)
Theorem C72_no_newline_refuted : exists a b f g, returns a (Ok f) /\ returns b (Ok g) /\ returns (a ++ b) (Ok f) /\ ~ both f g f.
Proof.
  exists (textOf "const A = 1; // one"), (textOf "const B = 2;"), (mkFile [mkConst "A" 1] [] [] []), (mkFile [mkConst "B" 2] [] [] []).
  split; [apply (returns_some _ 2000%nat); vm_compute; reflexivity|]. split; [apply (returns_some _ 2000%nat); vm_compute; reflexivity|].
  split; [apply (returns_some _ 2000%nat); vm_compute; reflexivity|]. intros (H & _). discriminate.
Qed.
Print Assumptions C72_no_newline_refuted.

(* ---------- packages ---------- *)

(** [p'] holds the parsers of [p]. *)
Definition sameParsers camel (fs fs' : list file) (r r' : resolver) (p p' : program) : Prop :=
  (forall s fs0 data args, validCall camel fs r s fs0 data args ->
     validCall camel fs' r' s fs0 data args /\ sameEnds camel p p' s s fs0 data args) /\
  (forall s data args, defines fs s -> ctxValues camel r s args -> goBytes data ->
     forall n, runNew camel p n s data args = runNew camel p' n s data args).
Lemma moved_too : forall fs fs', sameDeclarations fs fs' -> declaresToo fs fs'.
Proof.
  intros fs fs' [P1 P2 P3].
  constructor; intros f x I J; [| |intros _]; apply in_flat_map; eapply Permutation_in; eauto; apply in_flat_map; eauto.
Qed.

(** C70. Declarations may be moved between files.  The files have to be accepted
    together (C08 says when they are); nothing else is needed. *)
Theorem C70_moved : forall camel os os' fs fs' r r' p, package camel os fs r p -> sameDeclarations fs fs' ->
  all_valid os' -> NewResolverFiles os' fs' = Ok r' ->
  exists p', package camel os' fs' r' p' /\ sameParsers camel fs fs' r r' p p'.
Proof.
  intros camel os os' fs fs' r r' p PK SD V' R'. destruct (sd_package camel os os' fs fs' r r' p V' SD PK R') as [p' PK']. exists p'. split; auto.
  pose proof (moved_too _ _ SD) as DT. split.
  - intros. eapply C70_more_declarations; eauto.
  - intros. eapply C70_more_new; eauto.
Qed.
Print Assumptions C70_moved.

(** C28: the checks of GenCheck.v suffice for generation to succeed. *)
Theorem C28_checked : forall camel os fs r, all_valid os -> NewResolverFiles os fs = Ok r -> checkFiles camel r fs = true ->
  exists p, Marshallers camel os fs = Ok p.
Proof. intros camel os fs r V R C. destruct (checked_package camel os fs r V R C) as [p PK]. exists p. apply PK. Qed.
Print Assumptions C28_checked.

Lemma both_moved : forall fs1 fs2 f g h, both f g h -> sameDeclarations (fs1 ++ h :: fs2) (fs1 ++ f :: g :: fs2).
Proof.
  intros fs1 fs2 f g h (A & B & D & _). constructor; rewrite !flat_map_app; apply Permutation_app_head; cbn [flat_map]; rewrite ?A, ?B, ?app_assoc; auto.
  now apply Permutation_app_tail.
Qed.
Lemma nodup_apart : forall {A} (k : A -> string) l l' x y, NoDup (map k (l ++ l')) -> In x l -> In y l' -> k x <> k y.
Proof.
  intros A k l l' x y N I J E. rewrite map_app in N. induction l as [|z l IH]; [destruct I|]. cbn in N. inversion N as [|? ? NI N']; subst. destruct I as [->|I]; auto.
  apply NI, in_or_app. right. rewrite E. now apply in_map.
Qed.
Lemma nodup_left : forall {A} (k : A -> string) l l', NoDup (map k (l ++ l')) -> NoDup (map k l) /\ NoDup (map k l').
Proof.
  intros A k l l' N. rewrite map_app in N. induction l as [|z l IH]; cbn in *; [split; auto; constructor|]. inversion N as [|? ? NI N']; subst.
  destruct (IH N') as [H1 H2]. split; auto. constructor; auto. intros I. apply NI, in_or_app. auto.
Qed.
Lemma pairs_split : forall fs1 fs2 f g h, both f g h -> self_ok h -> ForallOrdPairs may_follow (fs1 ++ h :: fs2) -> ForallOrdPairs may_follow (fs1 ++ f :: g :: fs2).
Proof.
  intros fs1 fs2 f g h (A & B & D & _) (N1 & N2 & N3).
  assert (IS : forall s, In s (fstructs h) <-> In s (fstructs f) \/ In s (fstructs g)).
  { intros s. rewrite <- in_app_iff. split; apply Permutation_in; auto using Permutation_sym. }
  assert (IC : forall s, In s (fcontexts h) <-> In s (fcontexts f) \/ In s (fcontexts g)) by (intros; now rewrite B, in_app_iff).
  assert (IK : forall s, In s (fconstants h) <-> In s (fconstants f) \/ In s (fconstants g)) by (intros; now rewrite A, in_app_iff).
  assert (NS : NoDup (map sname (fstructs f ++ fstructs g))) by (eapply Permutation_NoDup; [|exact N1]; now apply Permutation_map).
  assert (L : forall k, may_follow h k -> may_follow f k /\ may_follow g k).
  { intros k (M1 & M2 & M3). split; (split; [|split]).
    - intros s t I. apply M1, IS; auto.
    - intros c d I. apply M2, IC; auto.
    - intros c d I. apply M3, IK; auto.
    - intros s t I. apply M1, IS; auto.
    - intros c d I. apply M2, IC; auto.
    - intros c d I. apply M3, IK; auto. }
  assert (R : forall k, may_follow k h -> may_follow k f /\ may_follow k g).
  { intros k (M1 & M2 & M3). split; (split; [|split]).
    - intros s t I J. apply M1; auto. apply IS; auto.
    - intros c d I J. apply M2; auto. apply IC; auto.
    - intros c d I J. apply M3; auto. apply IK; auto.
    - intros s t I J. apply M1; auto. apply IS; auto.
    - intros c d I J. apply M2; auto. apply IC; auto.
    - intros c d I J. apply M3; auto. apply IK; auto. }
  assert (FG : may_follow f g).
  { split; [|split].
    - intros s t I J E. destruct (nodup_apart sname _ _ s t NS I J E).
    - intros c d I J. rewrite B in N2. exact (nodup_apart cname _ _ c d N2 I J).
    - intros c d I J E. rewrite A in N3. destruct (nodup_apart kname _ _ c d N3 I J E). }
  clear - L R FG. induction fs1 as [|k fs1 IH]; cbn [app]; intros H; inversion H as [|? ? F P]; subst.
  - constructor; [constructor; auto; eapply Forall_impl; [|exact F]; intros k M; now apply L|]. constructor; auto. eapply Forall_impl; [|exact F]. intros k M. now apply L.
  - constructor; auto. apply Forall_app in F as [F1 F2]. inversion F2 as [|? ? Fh F3]; subst. apply Forall_app. split; auto. apply R in Fh as [? ?]. auto.
Qed.

(** C72. If a set of files gives a package, it still does after one file has been
    cut in two, and the parsers do the same. *)
Theorem C72_cut_package : forall camel os os' fs1 fs2 f g h r p, both f g h -> package camel os (fs1 ++ h :: fs2) r p -> all_valid os' ->
  exists r' p', package camel os' (fs1 ++ f :: g :: fs2) r' p' /\
    sameParsers camel (fs1 ++ h :: fs2) (fs1 ++ f :: g :: fs2) r r' p p' /\ sameParsers camel (fs1 ++ f :: g :: fs2) (fs1 ++ h :: fs2) r' r p' p.
Proof.
  intros camel os os' fs1 fs2 f g h r p B PK V'.
  assert (E : exists r', NewResolverFiles os' (fs1 ++ f :: g :: fs2) = Ok r').
  { apply resolver_accepts_iff; auto. assert (H : exists r, NewResolverFiles os (fs1 ++ h :: fs2) = Ok r) by (exists r; apply PK).
    apply resolver_accepts_iff in H as [S P]; [|apply PK]. apply Forall_app in S as [S1 S2]. inversion S2 as [|? ? Sh S3]; subst.
    split; [|eapply pairs_split; eauto]. apply Forall_app. split; auto. destruct B as (A & B & D & _), Sh as (N1 & N2 & N3).
    assert (NS : NoDup (map sname (fstructs f ++ fstructs g))) by (eapply Permutation_NoDup; [|exact N1]; now apply Permutation_map).
    rewrite B in N2. rewrite A in N3. apply nodup_left in NS as [? ?]. apply nodup_left in N2 as [? ?]. apply nodup_left in N3 as [? ?].
    constructor; [repeat split; auto|]. constructor; [repeat split; auto|]. auto. }
  destruct E as [r' R']. pose proof (both_moved fs1 fs2 f g h B) as SD. destruct (C70_moved camel os os' _ _ r r' p PK SD V' R') as (p' & PK' & SP).
  exists r', p'. split; auto. split; auto. pose proof (moved_too _ _ (sd_sym _ _ SD)) as DT. split.
  - intros. eapply C70_more_declarations; eauto.
  - intros. eapply C70_more_new; eauto.
Qed.
Print Assumptions C72_cut_package.

(** Two files may be joined if no struct and no constant is declared in both. *)
Definition apart (f g : file) : Prop :=
  (forall s t, In s (fstructs f) -> In t (fstructs g) -> sname s <> sname t) /\
  (forall c d, In c (fconstants f) -> In d (fconstants g) -> kname c <> kname d).
Lemma nodup_both : forall {A} (k : A -> string) l l', NoDup (map k l) -> NoDup (map k l') -> (forall x y, In x l -> In y l' -> k x <> k y) -> NoDup (map k (l ++ l')).
Proof.
  intros A k l l' N N' D. induction l as [|x l IH]; cbn in *; auto. inversion N as [|? ? NI N1]; subst. constructor; [|apply IH; auto].
  rewrite in_map_iff. intros (y & E & I). apply in_app_iff in I as [I|I]; [apply NI; rewrite <- E; now apply in_map|]. exact (D x y (or_introl eq_refl) I (eq_sym E)).
Qed.
Lemma pairs_join : forall fs1 fs2 f g h, both f g h -> ForallOrdPairs may_follow (fs1 ++ f :: g :: fs2) -> ForallOrdPairs may_follow (fs1 ++ h :: fs2) /\ may_follow f g.
Proof.
  intros fs1 fs2 f g h (A & B & D & _).
  assert (IS : forall s, In s (fstructs h) -> In s (fstructs f) \/ In s (fstructs g)) by (intros s I; apply in_app_iff; eapply Permutation_in; eauto).
  assert (IC : forall s, In s (fcontexts h) -> In s (fcontexts f) \/ In s (fcontexts g)) by (intros; now rewrite <- in_app_iff, <- B).
  assert (IK : forall s, In s (fconstants h) -> In s (fconstants f) \/ In s (fconstants g)) by (intros; now rewrite <- in_app_iff, <- A).
  assert (L : forall k, may_follow f k -> may_follow g k -> may_follow h k).
  { intros k (M1 & M2 & M3) (Q1 & Q2 & Q3). split; [|split].
    - intros s t I. apply IS in I as [I|I]; eauto.
    - intros s t I. apply IC in I as [I|I]; eauto.
    - intros s t I. apply IK in I as [I|I]; eauto. }
  assert (R : forall k, may_follow k f -> may_follow k g -> may_follow k h).
  { intros k (M1 & M2 & M3) (Q1 & Q2 & Q3). split; [|split].
    - intros s t I J. apply IS in J as [J|J]; eauto.
    - intros s t I J. apply IC in J as [J|J]; eauto.
    - intros s t I J. apply IK in J as [J|J]; eauto. }
  clear - L R. induction fs1 as [|k fs1 IH]; cbn [app]; intros H; inversion H as [|? ? F P]; subst.
  - inversion P as [|? ? G P']; subst. inversion F as [|? ? FG F']; subst. split; auto. constructor; auto.
    rewrite Forall_forall in *. intros k I. apply L; auto.
  - apply IH in P as [P FG]. split; auto. constructor; auto. apply Forall_app in F as [F1 F2]. inversion F2 as [|? ? Ff F3]; subst. inversion F3 as [|? ? Fg F4]; subst.
    apply Forall_app. split; auto.
Qed.
Theorem C72_joined_package : forall camel os os' fs1 fs2 f g h r p, both f g h -> apart f g -> package camel os (fs1 ++ f :: g :: fs2) r p -> all_valid os' ->
  exists r' p', package camel os' (fs1 ++ h :: fs2) r' p' /\
    sameParsers camel (fs1 ++ h :: fs2) (fs1 ++ f :: g :: fs2) r' r p' p /\ sameParsers camel (fs1 ++ f :: g :: fs2) (fs1 ++ h :: fs2) r r' p p'.
Proof.
  intros camel os os' fs1 fs2 f g h r p B AP PK V'.
  assert (E : exists r', NewResolverFiles os' (fs1 ++ h :: fs2) = Ok r').
  { apply resolver_accepts_iff; auto. assert (H : exists r, NewResolverFiles os (fs1 ++ f :: g :: fs2) = Ok r) by (exists r; apply PK).
    apply resolver_accepts_iff in H as [S P]; [|apply PK]. apply Forall_app in S as [S1 S2]. inversion S2 as [|? ? Sf S3]; subst. inversion S3 as [|? ? Sg S4]; subst.
    destruct (pairs_join fs1 fs2 f g h B P) as [P' FG].
    split; auto. apply Forall_app. split; auto. constructor; auto. destruct B as (A & B & D & _), Sf as (N1 & N2 & N3), Sg as (O1 & O2 & O3), AP as [AS AK].
    split; [|split].
    - eapply Permutation_NoDup; [apply Permutation_map, Permutation_sym; exact D|]. now apply nodup_both.
    - rewrite B. apply nodup_both; auto. intros x y I J. exact (proj1 (proj2 FG) x y I J).
    - rewrite A. now apply nodup_both. }
  destruct E as [r' R']. pose proof (sd_sym _ _ (both_moved fs1 fs2 f g h B)) as SD. destruct (C70_moved camel os os' _ _ r r' p PK SD V' R') as (p' & PK' & SP).
  exists r', p'. split; auto. split; auto. pose proof (moved_too _ _ (sd_sym _ _ SD)) as DT. split.
  - intros. eapply C70_more_declarations; eauto.
  - intros. eapply C70_more_new; eauto.
Qed.
Print Assumptions C72_joined_package.
(** A constant may be declared in two files, with the same value, but not twice
    in one. *)
Theorem C72_joined_package_refuted : exists camel os f g h r p, both f g h /\ package camel os [f; g] r p /\ NewResolverFiles os [h] = Err "duplicate constant name".
Proof.
  set (f := mkFile [mkConst "A" 1] [] [] []). set (g := mkFile [mkConst "A" 1] [] [mkStruct "x" [] (Some [u8 "n"])] []).
  exists camelX, osX, f, g, (mkFile [mkConst "A" 1; mkConst "A" 1] [] [mkStruct "x" [] (Some [u8 "n"])] []), (theRes [f; g]), (theProg [f; g]).
  split; [unfold both; cbn; auto|]. split; [apply package_of; vm_compute; reflexivity|]. vm_compute. reflexivity.
Qed.
Print Assumptions C72_joined_package_refuted.

(** Two sources that need each other, with a comment at the end of the first and
    an inline struct in each. *)
Definition upper : string := "const MAX = 3;
struct pkt {
  u8 n IN [1..MAX];
  struct hdr { u16 a; } h;
  struct item items[n];
} // the end".
Definition lower : string := "/* items */ const MIN = 1;
struct item { u8 k IN [MIN]; union body [k] { 1: struct one { u8 x[MAX]; } o; default: fail; }; }".
Definition fileIn (s : string) : file := match parseString 2000 (textOf s) with Some (Ok f) => f | _ => mkFile [] [] [] [] end.
Definition fileUp := Eval vm_compute in fileIn upper.
Definition fileLow := Eval vm_compute in fileIn lower.
Definition fileBoth := Eval vm_compute in fileIn (upper ++ String (ascii_of_nat 10) "" ++ lower).
Example C72_case : returns (textOf upper) (Ok fileUp) /\ returns (textOf lower) (Ok fileLow) /\ returns (textOf upper ++ newline ++ textOf lower) (Ok fileBoth) /\
  both fileUp fileLow fileBoth /\ apart fileUp fileLow /\
  (exists r p, package camelX osX [fileUp; fileLow] r p) /\ (exists r p, package camelX osX [fileBoth] r p) /\
  List.length (fstructs fileUp) = 2%nat /\ List.length (fstructs fileLow) = 2%nat /\ List.length (fstructs fileBoth) = 4%nat.
Proof.
  assert (U : returns (textOf upper) (Ok fileUp)) by (apply (returns_some _ 2000%nat); vm_compute; reflexivity).
  assert (L : returns (textOf lower) (Ok fileLow)) by (apply (returns_some _ 2000%nat); vm_compute; reflexivity).
  assert (B : returns (textOf upper ++ newline ++ textOf lower) (Ok fileBoth)) by (apply (returns_some _ 2000%nat); vm_compute; reflexivity).
  split; [exact U|]. split; [exact L|]. split; [exact B|]. split.
  { destruct (C72_joined _ _ _ _ U L) as (h & R & H). pose proof (returns_fun _ _ _ R B) as E. injection E as ->. exact H. }
  split. { split; intros s t; cbn; intros I J; repeat (destruct I as [<-|I]; [repeat (destruct J as [<-|J]; [discriminate|]); contradiction|]); contradiction. }
  split; [exists (theRes [fileUp; fileLow]), (theProg [fileUp; fileLow]); apply package_of; vm_compute; reflexivity|].
  split; [exists (theRes [fileBoth]), (theProg [fileBoth]); apply package_of; vm_compute; reflexivity|]. repeat split; reflexivity.
Qed.
(** A condition of [C72_cut] that holds: a text that begins with a letter. *)
Example C72_case2 : ~ semicolonFirst [115; 59].
Proof.
  intros [r B]. inversion B as [|i m r' H B' E1 E2]; subst. inversion H as [c i' I E|body i' H1 E|body i' H1 H2 E]; subst; cbn in *; try discriminate.
  intuition discriminate.
Qed.
