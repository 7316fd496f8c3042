(** Property C91: the bytes of a field that nothing refers to matter to that field alone.

    [unused camel g ms]: no member of [ms] has the field that Go calls [g] as the length of an
    array or union, or as a tag (IndepSpec.v). *)
From Coq Require Import ZArith String List Bool Lia ZifyBool ZifyNat.
From Verif Require Import Base Ast IntervalsModel InspectModel InspectSpec InspectProofs GoLang GenModel GenDecode GenCheck GenSimBody GenSimProg WireSpec WireProofs WireComplete WireFacts GenTerm
  ReachSpec ReachProofs FaultProofs PackageSpec PackageProofs PackageFacts PackageMore P_Fault GenExamples GenWitness IndepSpec Indep IndepLen.
Import ListNotations.
Open Scope string_scope.
Open Scope list_scope.
Open Scope Z_scope.

(** If an input is accepted, the field has its own stretch of bytes there.  Any other encoding of
    a value of its type, of the same length, can be put in their place.  The input is accepted
    still, with the same rest, and the field has the new value; all others are as before. *)
Theorem C91_field : forall camel os fs r p, package camel os fs r p ->
  forall s fs0 data args, validCall camel fs r s fs0 data args -> ptrFiles fs = true -> roomyFiles fs r -> blen data <= maxData ->
  forall ms1 nm t ms2, members_of s = ms1 ++ MField nm t :: ms2 -> unused camel (camel nm) ms2 ->
  forall fs1 rest, parses camel p s fs0 data args fs1 rest ->
  exists u w v fsA x, data = u ++ w ++ v /\ encMs camel (Constant r) (Struct r) True (contextsOf s args) 0 ms1 fs0 u (w ++ v) fsA /\
    enc camel (Constant r) (Struct r) True (contextsOf s args) (blen u) fsA t x w v /\ alookup (camel nm) fs1 = Some x /\
    forall w' x', goBytes w' -> blen w' = blen w -> enc camel (Constant r) (Struct r) True (contextsOf s args) (blen u) fsA t x' w' v ->
      parses camel p s fs0 (u ++ w' ++ v) args (setField (camel nm) x' fs1) rest.
Proof.
  intros camel os fs r p PK s fs0 data args VC PT RO L ms1 nm t ms2 EM UN fs1 rest H.
  destruct (parses_encodes camel os fs r p PK s fs0 data args VC PT True (or_introl I) _ _ H) as (w0 & E0 & X).
  unfold encStruct in X. rewrite EM in X.
  destruct (checked_parts camel r s (vc_check camel os fs r p PK s fs0 data args VC)) as (_ & _ & ND). rewrite EM in ND.
  destruct (swap_field camel r True _ _ _ _ _ _ _ _ _ _ ND UN X) as (u & w & v & fsA & x & -> & HA & HE & HL & HS).
  rewrite Z.add_0_l in HE. exists u, w, (v ++ rest), fsA, x. split; [rewrite E0; now rewrite <- !app_assoc|]. split; [exact HA|]. split; [exact HE|]. split.
  - apply HL. rewrite (vc_dom camel fs r s fs0 data args VC), EM. apply in_map.
    rewrite flat_map_app. apply in_or_app. right. now left.
  - intros w' x' G Lw HE'. assert (LD : blen (u ++ w' ++ v ++ rest) = blen data) by (rewrite E0, !blen_app; lia).
    apply (encodes_parses camel os fs r p PK s fs0 (u ++ w' ++ v ++ rest) args) with (lenient := True) (w := u ++ w' ++ v); auto.
    + destruct VC as [V1 V2 V3 [V4 V5]]. constructor; auto. destruct G as [G _]. split; [|lia]. rewrite E0 in V4.
      rewrite <- !app_assoc in V4. unfold all_bytes in *. rewrite !Forall_app in *. tauto.
    + lia.
    + now rewrite <- !app_assoc.
    + unfold encStruct. rewrite EM. apply HS; auto.
Qed.
Print Assumptions C91_field.

(** For an integer: its bytes are the big-endian form of the field, and those of any other allowed
    integer will do as well.  An integer that is not allowed is reported as such. *)
Theorem C91_integer : forall camel os fs r p, package camel os fs r p ->
  forall s fs0 data args, validCall camel fs r s fs0 data args -> ptrFiles fs = true -> roomyFiles fs r -> blen data <= maxData ->
  forall ms1 nm sz cst ms2, members_of s = ms1 ++ MField nm (TInt sz cst) :: ms2 -> unused camel (camel nm) ms2 ->
  forall fs1 rest, parses camel p s fs0 data args fs1 rest ->
  exists u w v x, data = u ++ w ++ v /\ blen w = sz / 8 /\ bigEndian w x /\ alookup (camel nm) fs1 = Some (VInt x) /\
    forall w' x', goBytes w' -> blen w' = sz / 8 -> bigEndian w' x' ->
      ((forall l, cst = Some l -> in_list (Constant r) l x') -> parses camel p s fs0 (u ++ w' ++ v) args (setField (camel nm) (VInt x') fs1) rest) /\
      (forall l, cst = Some l -> ~ in_list (Constant r) l x' -> fails camel p s fs0 (u ++ w' ++ v) args "integer constraint violated").
Proof.
  intros camel os fs r p PK s fs0 data args VC PT RO L ms1 nm sz cst ms2 EM UN fs1 rest H.
  destruct (C91_field camel os fs r p PK s fs0 data args VC PT RO L ms1 nm (TInt sz cst) ms2 EM UN fs1 rest H) as (u & w & v & fsA & y & E & HA & HE & HL & HS).
  inversion HE as [? ? ? ? x ? ? B Lw C| | | | | | | |]; subst. exists u, w, v, x. split; auto. split; auto. split; auto. split; auto.
  intros w' x' G L' B'. split.
  - intros C'. apply HS; auto; [lia|]. constructor; auto.
  - intros l -> C'. apply (C81_errors_exact camel os fs r p PK); auto.
    + destruct VC as [V1 V2 V3 [V4 V5]]. constructor; auto. destruct G as [G _]. split; [|rewrite !blen_app in *; lia].
      unfold all_bytes in *. rewrite !Forall_app in *. tauto.
    + rewrite !blen_app in *. lia.
    + exists (contextsOf s args), (0 + blen u), (AtType (TInt sz (Some l))), fsA, (w' ++ v). split.
      * apply V_field with (nm := nm). apply V_member with (ms1 := ms1) (ms2 := ms2) (fs := fs0) (w := u).
        -- rewrite <- EM. apply V_start.
        -- apply (tail_length camel r True (contextsOf s args)) with (tail := w ++ v); auto. rewrite !blen_app. lia.
      * apply F_constraint with (x := x'); auto.
Qed.
Print Assumptions C91_integer.

(** [struct box { u8 n; u16 a IN [1..300]; u8 xs[n]; }]: [a] can be replaced. *)
Definition boxS := mkStruct "box" [] (Some [u8 "n"; MField "a" (TInt 16 (Some [mkRange (ILit 1) (Some (ILit 300))])); MField "xs" (TVar (TInt 8 None) (Some (LRef (local "n"))))]).
Lemma box_package : package camelX osX (one [boxS]) (theRes (one [boxS])) (theProg (one [boxS])).
Proof. apply package_of; vm_compute; reflexivity. Qed.
Lemma box_call : forall data, goBytes data -> validCall camelX (one [boxS]) (theRes (one [boxS])) boxS (blank camelX (Constant (theRes (one [boxS]))) boxS) data [].
Proof. intros data G. exact (fresh_call [boxS] boxS data eq_refl (or_introl eq_refl) eq_refl eq_refl G). Qed.
Example C91_case : package camelX osX (one [boxS]) (theRes (one [boxS])) (theProg (one [boxS])) /\
  validCall camelX (one [boxS]) (theRes (one [boxS])) boxS (blank camelX (Constant (theRes (one [boxS]))) boxS) [2; 0; 9; 5; 6; 7] [] /\
  ptrFiles (one [boxS]) = true /\ roomyFiles (one [boxS]) (theRes (one [boxS])) /\ blen [2; 0; 9; 5; 6; 7] <= maxData /\
  unused camelX (camelX "a") [MField "xs" (TVar (TInt 8 None) (Some (LRef (local "n"))))] /\
  parses camelX (theProg (one [boxS])) boxS (blank camelX (Constant (theRes (one [boxS]))) boxS) [2; 0; 9; 5; 6; 7] []
    [("N", VInt 2); ("A", VInt 9); ("Xs", VList [VInt 5; VInt 6])] [7] /\
  parses camelX (theProg (one [boxS])) boxS (blank camelX (Constant (theRes (one [boxS]))) boxS) [2; 1; 1; 5; 6; 7] []
    [("N", VInt 2); ("A", VInt 257); ("Xs", VList [VInt 5; VInt 6])] [7].
Proof.
  assert (G : goBytes [2; 0; 9; 5; 6; 7]) by (apply bytes_ok; vm_compute; reflexivity).
  assert (G' : goBytes [2; 1; 1; 5; 6; 7]) by (apply bytes_ok; vm_compute; reflexivity).
  split; [exact box_package|]. split; [now apply box_call|]. split; [reflexivity|]. split.
  { right. intros s' D. apply defines_in in D. destruct D as [<-|[]]. intros f [<-|[]]. split; [|intros X; now destruct X]. intros _ sz cst J. fieldCases J. }
  split; [vm_compute; discriminate|]. split.
  { intros m f [<-|[]] [<-|[]] _. vm_compute. discriminate. }
  split.
  - apply (parses_dec camelX osX _ _ _ box_package _ _ _ _ (box_call _ G)). exists 5%nat. vm_compute. reflexivity.
  - apply (parses_dec camelX osX _ _ _ box_package _ _ _ _ (box_call _ G')). exists 5%nat. vm_compute. reflexivity.
Qed.

(** Not so for a field that is referred to: with another [n] the array no longer fits. *)
Theorem C91_used_refuted : exists fs r p s ms1 nm sz ms2 fs0 fs1 u w v w' x', package camelX osX fs r p /\
  validCall camelX fs r s fs0 (u ++ w ++ v) [] /\ members_of s = ms1 ++ MField nm (TInt sz None) :: ms2 /\
  parses camelX p s fs0 (u ++ w ++ v) [] fs1 [] /\ blen w = sz / 8 /\ blen w' = sz / 8 /\ goBytes w' /\ bigEndian w' x' /\
  forall fs2 rest, ~ parses camelX p s fs0 (u ++ w' ++ v) [] fs2 rest.
Proof.
  assert (G : goBytes [2; 0; 9; 5; 6]) by (apply bytes_ok; vm_compute; reflexivity).
  assert (G' : goBytes [3; 0; 9; 5; 6]) by (apply bytes_ok; vm_compute; reflexivity).
  exists (one [boxS]), (theRes (one [boxS])), (theProg (one [boxS])), boxS, [], "n", 8, (tl (members_of boxS)).
  exists (blank camelX (Constant (theRes (one [boxS]))) boxS), [("N", VInt 2); ("A", VInt 9); ("Xs", VList [VInt 5; VInt 6])], [], [2], [0; 9; 5; 6], [3], 3.
  split; [exact box_package|]. split; [now apply box_call|]. split; [reflexivity|]. split.
  { apply (parses_dec camelX osX _ _ _ box_package _ _ _ _ (box_call _ G)). exists 5%nat. vm_compute. reflexivity. }
  split; [reflexivity|]. split; [reflexivity|]. split; [apply bytes_ok; vm_compute; reflexivity|]. split.
  { apply (BE_snoc [] 0 3); [constructor|]. unfold is_byte. lia. }
  intros fs2 rest H. apply (parses_dec camelX osX _ _ _ box_package _ _ _ _ (box_call _ G')) in H as [n H].
  assert (F : exists e, fails camelX (theProg (one [boxS])) boxS (blank camelX (Constant (theRes (one [boxS]))) boxS) [3; 0; 9; 5; 6] [] e).
  { eexists. apply (fails_dec camelX osX _ _ _ box_package _ _ _ _ (box_call _ G')). exists 5%nat. vm_compute. reflexivity. }
  destruct F as (e & F). apply (fails_dec camelX osX _ _ _ box_package _ _ _ _ (box_call _ G')) in F as [k F].
  assert (X : Ok (fs2, rest) = Err e) by (eapply run_unique; eauto; discriminate). discriminate.
Qed.
Print Assumptions C91_used_refuted.

(** The new encoding may have any length if the members before the field do not look at the end of
    the data and those after it hold no positions. *)
Theorem C91_any_length : forall camel os fs r p, package camel os fs r p ->
  forall s fs0 data args, validCall camel fs r s fs0 data args -> ptrFiles fs = true -> roomyFiles fs r ->
  forall ms1 nm t ms2, members_of s = ms1 ++ MField nm t :: ms2 -> unused camel (camel nm) ms2 ->
  selfDelimiting r (mkStruct (sname s) (scontexts s) (Some ms1)) -> forallb noPtrM ms2 = true ->
  forall fs1 rest, parses camel p s fs0 data args fs1 rest ->
  exists u w v fsA x, data = u ++ w ++ v /\ encMs camel (Constant r) (Struct r) True (contextsOf s args) 0 ms1 fs0 u (w ++ v) fsA /\
    enc camel (Constant r) (Struct r) True (contextsOf s args) (blen u) fsA t x w v /\ alookup (camel nm) fs1 = Some x /\
    forall w' x', goBytes (u ++ w' ++ v) -> blen (u ++ w' ++ v) <= maxData -> enc camel (Constant r) (Struct r) True (contextsOf s args) (blen u) fsA t x' w' v ->
      parses camel p s fs0 (u ++ w' ++ v) args (setField (camel nm) x' fs1) rest.
Proof.
  intros camel os fs r p PK s fs0 data args VC PT RO ms1 nm t ms2 EM UN SD NP fs1 rest H.
  destruct (parses_encodes camel os fs r p PK s fs0 data args VC PT True (or_introl I) _ _ H) as (w0 & E0 & X).
  unfold encStruct in X. rewrite EM in X.
  destruct (checked_parts camel r s (vc_check camel os fs r p PK s fs0 data args VC)) as (_ & _ & ND). rewrite EM in ND.
  destruct (swap_any camel r True _ _ _ _ _ _ _ _ _ _ _ _ ND UN SD NP X) as (u & w & v & fsA & x & -> & HA & HE & HL & HS).
  rewrite Z.add_0_l in HE. exists u, w, (v ++ rest), fsA, x. split; [rewrite E0; now rewrite <- !app_assoc|]. split; [exact HA|]. split; [exact HE|]. split.
  - apply HL. rewrite (vc_dom camel fs r s fs0 data args VC), EM. apply in_map.
    rewrite flat_map_app. apply in_or_app. right. now left.
  - intros w' x' G L HE'.
    apply (encodes_parses camel os fs r p PK s fs0 (u ++ w' ++ v ++ rest) args) with (lenient := True) (w := u ++ w' ++ v); auto.
    + destruct VC as [V1 V2 V3 _]. constructor; auto.
    + now rewrite <- !app_assoc.
    + unfold encStruct. rewrite EM. apply HS; auto.
Qed.
Print Assumptions C91_any_length.

(** For a string, any other string will do. *)
Theorem C91_string : forall camel os fs r p, package camel os fs r p ->
  forall s fs0 data args, validCall camel fs r s fs0 data args -> ptrFiles fs = true -> roomyFiles fs r ->
  forall ms1 nm ms2, members_of s = ms1 ++ MField nm TNul :: ms2 -> unused camel (camel nm) ms2 ->
  selfDelimiting r (mkStruct (sname s) (scontexts s) (Some ms1)) -> forallb noPtrM ms2 = true ->
  forall fs1 rest, parses camel p s fs0 data args fs1 rest ->
  exists u b v, data = u ++ b ++ 0 :: v /\ alookup (camel nm) fs1 = Some (VStr b) /\
    forall b', ~ In 0 b' -> goBytes (u ++ b' ++ 0 :: v) -> blen (u ++ b' ++ 0 :: v) <= maxData ->
      parses camel p s fs0 (u ++ b' ++ 0 :: v) args (setField (camel nm) (VStr b') fs1) rest.
Proof.
  intros camel os fs r p PK s fs0 data args VC PT RO ms1 nm ms2 EM UN SD NP fs1 rest H.
  destruct (C91_any_length camel os fs r p PK s fs0 data args VC PT RO ms1 nm TNul ms2 EM UN SD NP fs1 rest H) as (u & w & v & fsA & x & E & _ & HE & HL & HS).
  inversion HE as [| |? ? b ? N| | | | | |]; subst. exists u, b, v. split; [now rewrite <- app_assoc|]. split; auto.
  intros b' N' G L. specialize (HS (b' ++ [0]) (VStr b')). rewrite <- !app_assoc in HS. cbn [app] in HS. apply HS; auto. now constructor.
Qed.
Print Assumptions C91_string.

(** [struct tagged { u8 n; nulterm name; u8 xs[n]; }]: a longer name. *)
Definition taggedS := mkStruct "tagged" [] (Some [u8 "n"; MField "name" TNul; MField "xs" (TVar (TInt 8 None) (Some (LRef (local "n"))))]).
Lemma tagged_package : package camelX osX (one [taggedS]) (theRes (one [taggedS])) (theProg (one [taggedS])).
Proof. apply package_of; vm_compute; reflexivity. Qed.
Example C91_string_case : package camelX osX (one [taggedS]) (theRes (one [taggedS])) (theProg (one [taggedS])) /\
  validCall camelX (one [taggedS]) (theRes (one [taggedS])) taggedS (blank camelX (Constant (theRes (one [taggedS]))) taggedS) [2; 65; 0; 5; 6; 7] [] /\
  ptrFiles (one [taggedS]) = true /\ roomyFiles (one [taggedS]) (theRes (one [taggedS])) /\
  unused camelX (camelX "name") [MField "xs" (TVar (TInt 8 None) (Some (LRef (local "n"))))] /\
  selfDelimiting (theRes (one [taggedS])) (mkStruct "tagged" [] (Some [u8 "n"])) /\
  parses camelX (theProg (one [taggedS])) taggedS (blank camelX (Constant (theRes (one [taggedS]))) taggedS) [2; 65; 0; 5; 6; 7] []
    [("N", VInt 2); ("Name", VStr [65]); ("Xs", VList [VInt 5; VInt 6])] [7] /\
  parses camelX (theProg (one [taggedS])) taggedS (blank camelX (Constant (theRes (one [taggedS]))) taggedS) [2; 66; 67; 68; 0; 5; 6; 7] []
    [("N", VInt 2); ("Name", VStr [66; 67; 68]); ("Xs", VList [VInt 5; VInt 6])] [7].
Proof.
  assert (V : forall data, goBytes data -> validCall camelX (one [taggedS]) (theRes (one [taggedS])) taggedS (blank camelX (Constant (theRes (one [taggedS]))) taggedS) data []).
  { intros data G. exact (fresh_call [taggedS] taggedS data eq_refl (or_introl eq_refl) eq_refl eq_refl G). }
  assert (G : goBytes [2; 65; 0; 5; 6; 7]) by (apply bytes_ok; vm_compute; reflexivity).
  assert (G' : goBytes [2; 66; 67; 68; 0; 5; 6; 7]) by (apply bytes_ok; vm_compute; reflexivity).
  split; [exact tagged_package|]. split; [now apply V|]. split; [reflexivity|]. split.
  { right. intros s' D. apply defines_in in D. destruct D as [<-|[]]. intros f [<-|[]]. split; [|intros X; now destruct X]. intros _ sz cst J. fieldCases J. }
  split.
  { intros m f [<-|[]] [<-|[]] _. vm_compute. discriminate. }
  split.
  { assert (R : forall s', reaches (theRes (one [taggedS])) exposed (mkStruct "tagged" [] (Some [u8 "n"])) s' -> s' = mkStruct "tagged" [] (Some [u8 "n"])).
    { induction 1 as [|s1 m nm s2 _ IH I J _]; auto. subst s1. destruct I as [<-|[]]. destruct J. }
    intros s' m H I. rewrite (R s' H) in I. destruct I as [<-|[]]. reflexivity. }
  split.
  - apply (parses_dec camelX osX _ _ _ tagged_package _ _ _ _ (V _ G)). exists 5%nat. vm_compute. reflexivity.
  - apply (parses_dec camelX osX _ _ _ tagged_package _ _ _ _ (V _ G')). exists 5%nat. vm_compute. reflexivity.
Qed.
