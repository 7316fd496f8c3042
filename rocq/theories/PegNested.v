(** Nested inline structs: accepted, and parsed three times per level. *)
From Coq Require Import ZArith String Ascii List Bool Lia ZifyBool ZifyNat.
From Verif Require Import Base Ast PegModel PegGrammar PegEngine PegRunes PegTop PegUtf8 SyntaxSpec PegLexical PegSound PegComplete PegSpace PegShape PegExact PegPrint
  PegReport PegReportProofs PegPlace PegReportTop PegExp.
Import ListNotations.
Open Scope string_scope.
Open Scope list_scope.
Open Scope Z_scope.

(** A struct with [d] structs declared inside of each other. *)
Fixpoint nestedMember (d : nat) : text :=
  match d with
  | O => textOf "u8 a;"
  | S d => textOf "struct b{" ++ nestedMember d ++ textOf "} c;"
  end.
Definition nestedSource (d : nat) : text := textOf "struct a{" ++ nestedMember d ++ textOf "}".

Lemma nested_length : forall d, length (nestedSource d) = (15 + 13 * d)%nat.
Proof.
  intros d. unfold nestedSource. rewrite !app_length. replace (length (nestedMember d)) with (5 + 13 * d)%nat; [cbn [textOf list_ascii_of_string length]; lia|].
  induction d as [|d IH]; [reflexivity|]. cbn [nestedMember]. rewrite !app_length, <- IH. cbn [textOf list_ascii_of_string length]. lia.
Qed.

(* ---------- the cost ---------- *)

Lemma member_cost : forall d y, T (ERule "StructMember") (nestedMember d ++ y) true y (3 ^ Z.of_nat d).
Proof.
  induction d as [|d IH]; intros y.
  - assert (H : recog false 300 (ERule "StructMember") (chars "u8 a;" ++ [Tail]) = Some (true, [Tail], (76, 0))) by (vm_compute; reflexivity).
    pose proof (recog_T [] y 0 (Z.le_refl 0) false ltac:(discriminate) _ _ _ _ _ _ H) as HT. clear H. rename HT into H.
    assert (E1 : den [] y (chars "u8 a;" ++ [Tail]) = nestedMember 0 ++ y).
    { unfold den. rewrite !flat_map_app. cbn [nestedMember flat_map chars map textOf list_ascii_of_string app]. now rewrite app_nil_r. }
    rewrite E1 in H. unfold den in H. cbn [flat_map] in H. rewrite app_nil_r in H. eapply T_weaken; [exact H|]. unfold price. cbn. lia.
  - assert (H : recog true 300 (ERule "StructMember") (chars "struct b{" ++ [Hole] ++ chars "} c;" ++ [Tail]) = Some (true, [Tail], (352, 3))) by (vm_compute; reflexivity).
    pose proof (recog_T (nestedMember d) y (3 ^ Z.of_nat d) ltac:(apply Z.pow_nonneg; lia) true ltac:(intros _; exact IH) _ _ _ _ _ _ H) as HT. clear H. rename HT into H.
    assert (E1 : den (nestedMember d) y (chars "struct b{" ++ [Hole] ++ chars "} c;" ++ [Tail]) = nestedMember (S d) ++ y).
    { unfold den. rewrite !flat_map_app. cbn [nestedMember flat_map chars map textOf list_ascii_of_string app]. rewrite !app_nil_r, <- !app_assoc. reflexivity. }
    rewrite E1 in H. unfold den in H. cbn [flat_map] in H. rewrite app_nil_r in H. eapply T_weaken; [exact H|].
    unfold price. cbn [fst snd]. rewrite Nat2Z.inj_succ, Z.pow_succ_r by lia. lia.
Qed.
Lemma source_cost : forall d, T (ERule "File") (nestedSource d) true [] (3 ^ Z.of_nat d).
Proof.
  intros d. assert (H : recog true 300 (ERule "File") (chars "struct a{" ++ [Hole] ++ chars "}") = Some (true, [], (148, 1))) by (vm_compute; reflexivity).
  pose proof (recog_T (nestedMember d) [] (3 ^ Z.of_nat d) ltac:(apply Z.pow_nonneg; lia) true ltac:(intros _; apply member_cost) _ _ _ _ _ _ H) as HT. clear H. rename HT into H.
  assert (E1 : den (nestedMember d) [] (chars "struct a{" ++ [Hole] ++ chars "}") = nestedSource d).
  { unfold den. rewrite !flat_map_app. unfold nestedSource. cbn [flat_map chars map textOf list_ascii_of_string app]. rewrite ?app_nil_r, <- ?app_assoc. reflexivity. }
  rewrite E1 in H. eapply T_weaken; [exact H|]. unfold price. cbn [fst snd]. lia.
Qed.

(* ---------- the source is accepted ---------- *)

Fixpoint memberPoints (d : nat) : input :=
  match d with
  | O => points "u" ++ points "8" ++ points " " ++ points "a" ++ points ";"
  | S d => points "struct" ++ points " " ++ points "b" ++ points "{" ++ memberPoints d ++ points "}" ++ points " " ++ points "c" ++ points ";"
  end.
Lemma points_utf8 : forall s, forallb (fun c => (0 <=? c) && (c <? 128)) (points s) = true -> utf8 (points s) = textOf s.
Proof.
  intros s. unfold points, textOf. induction (list_ascii_of_string s) as [|c l IH]; [reflexivity|]. cbn [map forallb]. intros H.
  apply andb_prop in H as [H1 H2]. rewrite utf8_cons, IH by auto. unfold utf8_1.
  assert (B : Z.of_N (N_of_ascii c) <? 128 = true) by (apply andb_prop in H1; tauto). rewrite B. cbn [map app]. f_equal.
  unfold octet. rewrite N2Z.id. apply ascii_N_embedding.
Qed.
Lemma utf8_app : forall a b, utf8 (a ++ b) = utf8 a ++ utf8 b.
Proof. intros. unfold utf8. apply flat_map_app. Qed.
Lemma member_utf8 : forall d, utf8 (memberPoints d) = nestedMember d.
Proof.
  induction d as [|d IH]; [reflexivity|]. cbn [memberPoints nestedMember]. rewrite !utf8_app, IH, !points_utf8 by reflexivity. reflexivity.
Qed.
Lemma member_scalar : forall d, Forall scalar (memberPoints d).
Proof. induction d as [|d IH]; cbn [memberPoints]; scal. Qed.

Lemma sq : forall A B (R : prod A) (K : A -> prod B) a b s1 s2 i m r, R a s1 i m -> K a b s2 m r -> follow R K b (s1 ++ s2) i r.
Proof. intros. exists a, s1, s2, m. auto. Qed.
Lemma sq0 : forall A B (R : prod A) (K : A -> prod B) a b s2 i m r, R a [] i m -> K a b s2 m r -> follow R K b s2 i r.
Proof. intros. exists a, [], s2, m. auto. Qed.
Lemma sq1 : forall A B (R : prod A) (K : A -> prod B) a b s1 i m r, R a s1 i m -> K a b [] m r -> follow R K b s1 i r.
Proof. intros. exists a, s1, [], m. rewrite app_nil_r. auto. Qed.
Lemma member_plain : forall d r, plain (memberPoints d ++ r).
Proof. intros [|d] r; cbn [memberPoints]; rewrite <- app_assoc; pl. Qed.
Lemma word1 : forall n c r, points n = [c] -> first_ c = true -> stops later_ r -> Identifier n [] (points n ++ r) r.
Proof. intros n c r E F S. split; auto. exists c, []. rewrite E. split; auto. split; auto. split; auto. split; auto. rewrite <- E. symmetry. apply named_points. Qed.

Lemma struct_derives : forall SD x m ss d r, (forall r, ended (Member SD) m ss (memberPoints d ++ r) r) -> (x = "a" \/ x = "b") ->
  Struct SD (mkStruct x [] (Some [m])) ss (points "struct" ++ points " " ++ points x ++ points "{" ++ memberPoints d ++ points "}" ++ r) r.
Proof.
  intros SD x m ss d r H X. unfold Struct.
  assert (P : exists c, points x = [c] /\ first_ c = true /\ forall r, plain (points x ++ r)).
  { destruct X as [-> | ->]; eexists; repeat split; try reflexivity; intros; pl. }
  destruct P as (c & P & F & PL).
  eapply sq0; [eapply st; [apply st_tok|]; eapply st; [apply st_gap1; apply PL|]; eapply word1; eauto; reflexivity|].
  eapply sq0; [right; apply st_empty|]. eapply sq0; [apply st_gap; pl|]. eapply sq0; [apply st_tok|].
  eapply sq1.
  - rewrite <- (app_nil_r ss). eapply star_cons; [apply H|apply star_nil].
  - eapply (st _ _ (maybe (ended (Ending SD))) _ None); [split; reflexivity|]. eapply st; [apply st_gap; pl|]. eapply st; [apply st_tok|]. apply st_empty.
Qed.
Lemma member_derives : forall d, exists m ss, forall r, ended (Member (StructN d)) m ss (memberPoints d ++ r) r.
Proof.
  induction d as [|d (m & ss & IH)].
  - exists (MField "a" (TInt 8 None)), []. intros r. cbn [memberPoints]. rewrite <- !app_assoc. unfold ended.
    eapply st; [apply st_gap; pl|]. eapply st.
    + left. left. left. left. right. eapply st; [eapply st; [apply st_tok|]; left; left; left; apply (st_as _ _ (fun _ => 8) (tok "8") tt); apply st_tok|].
      eapply st; [apply st_gaps; pl|]. eapply st; [eapply word1; reflexivity|]. eapply st; [apply st_gap; pl|].
      eapply (st _ _ (maybe Constraint_) _ None); [split; reflexivity|]. apply st_empty.
    + eapply st; [apply st_gap; pl|]. eapply st; [apply st_tok|]. apply st_empty.
  - set (x := mkStruct "b" [] (Some [m])). exists (MField "c" (TStruct "b")), (ss ++ [x]). intros r. cbn [memberPoints]. rewrite <- !app_assoc. unfold ended.
    eapply sq0; [apply st_gap; pl|]. eapply sq1.
    + left. left. right. eapply sq1.
      * left. eapply (sq1 _ _ (declare (StructN (S d))) _ x); [|apply st_empty]. exists ss. split; [|reflexivity]. cbn [StructN]. apply struct_derives; auto.
      * eapply st; [apply st_gap1; pl|]. eapply st; [eapply word1; reflexivity|]. apply st_empty.
    + eapply st; [apply st_gap; pl|]. eapply st; [apply st_tok|]. apply st_empty.
Qed.
Lemma nested_accepted : forall d, exists f, returns (nestedSource d) (Ok f).
Proof.
  intros d. destruct (member_derives d) as (m & ss & H).
  eexists. apply returns_denotes. exists (points "struct" ++ points " " ++ points "a" ++ points "{" ++ memberPoints d ++ points "}" ++ []).
  exists [Struct_ (mkStruct "a" [] (Some [m]))], (ss ++ []). split; [|split; [|split; [|reflexivity]]].
  - pose proof (member_scalar d). scal. constructor.
  - unfold nestedSource. rewrite !utf8_app, member_utf8, !points_utf8 by reflexivity. reflexivity.
  - unfold File_. rewrite app_nil_r. eapply sq1; [|eapply st; [apply (st_gap [] I)|apply st_empty]].
    rewrite <- (app_nil_r ss). eapply star_cons; [|apply star_nil].
    eapply sq0; [apply st_gap; pl|]. left. left. right. unfold StructDef. eapply sq1; [exists (S d); cbn [StructN]; apply struct_derives; auto|].
    eapply (st _ _ (maybe (gap ~~ tok ";")) _ None); [split; reflexivity|]. apply st_empty.
Qed.
