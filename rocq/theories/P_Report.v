(** C62-C65: what is reported about a source that is not accepted, and how long
    parsing a source takes. *)
From Coq Require Import ZArith String Ascii List Bool Lia ZifyBool ZifyNat Permutation.
From Verif Require Import Base Ast PegModel PegGrammar PegTop PegUtf8 SyntaxSpec GenPrint PegReport ReportSpec PlaceSpec PegPlace PegReportTop PegPlaces PegKinds PegLocal PegNested NestSpec PegSpend PegUpper PegNestCost.
Import ListNotations.
Open Scope string_scope.
Open Scope list_scope.
Open Scope Z_scope.

Definition lines (l : list string) : text := textOf (String.concat newline l).

(** Every source is either accepted, with the file that [parse.String] returns, or
    answered with at least one report. *)
Theorem C62_reports : forall order fn data,
  (exists f, returns data (Ok f) /\ answers order fn data (RValue (VFile f))) \/
  (exists l, returns data failed /\ l <> [] /\ answers order fn data (RErrors l)).
Proof. exact exactly. Qed.
Print Assumptions C62_reports.

(** Every report names a place in the text: offset, line and column agree, except
    in front of a newline. *)
Theorem C62_positions_partial : forall order fn cs l r, Forall scalar cs ->
  answers order fn (utf8 cs) (RErrors l) -> In r l ->
  placeLax cs (offset (rpos r)) (line (rpos r)) (col (rpos r)).
Proof.
  intros order fn cs l r F A J. pose proof (report_placed _ _ _ _ _ A J) as P. pose proof (at_range _ _ P) as R.
  destruct (at_user _ _ cs [] P F) as (a & b & E & O & L); [now rewrite app_nil_r|exact R|].
  exists a, b. split; auto. split; auto. destruct L as [L|[L N]]; inversion L as [[L1 L2]]; [left; auto|right].
  split; auto. split; auto. rewrite app_nil_r in N. destruct b as [|c b]; [vm_compute in N; discriminate|]. exists b.
  assert (FC : scalar c) by (rewrite E in F; apply Forall_app in F as [_ F]; inversion F; auto).
  cbn [utf8 flat_map] in N. rewrite (proj1 (decode_utf8 c _ FC)) in N. cbn [fst] in N. congruence.
Qed.
Print Assumptions C62_positions_partial.

(** The same for all byte strings: a byte that belongs to no code point counts as one
    character.  A text has one sequence of characters. *)
Theorem C62_positions_bytes_partial : forall order fn data l r,
  answers order fn data (RErrors l) -> In r l -> placeBytes data (offset (rpos r)) (line (rpos r)) (col (rpos r)).
Proof. intros order fn data l r A J. exact (places _ _ (report_placed _ _ _ _ _ A J)). Qed.
Print Assumptions C62_positions_bytes_partial.
Theorem C62_characters : forall data, exists l, characters data l /\ forall l', characters data l' -> l' = l.
Proof. intros data. destruct (chars_exist data) as [l C]. exists l. split; auto. intros l' C'. exact (chars_unique _ _ C' _ C). Qed.
Print Assumptions C62_characters.
(** Two stray bytes and a letter outside of ASCII come before the error at offset 18,
    which is in column 18. *)
Example C62_bytes_case : exists l r, answers (fun l => l) "f" (textOf "/*" ++ [ascii_of_nat 200; ascii_of_nat 200] ++ utf8 [233] ++ textOf "*/const A = 08;") (RErrors l) /\
  In r l /\ rpos r = mkPosition 1 18 18.
Proof.
  eexists. eexists. split; [apply (answers_some _ _ _ 200); vm_compute; reflexivity|]. split; [right; right; left; reflexivity|reflexivity].
Qed.

(** Not always: the report about a missing number in front of a newline. *)
Definition openBracket : text := lines ["struct a {"; " u8 x[..-"; "3]; }"].
Theorem C62_positions_refuted : exists order fn cs l r, Forall scalar cs /\ (forall l, Permutation l (order l)) /\
  answers order fn (utf8 cs) (RErrors l) /\ In r l /\ ~ place cs (offset (rpos r)) (line (rpos r)) (col (rpos r)).
Proof.
  exists (fun l => l), "f", (map byte openBracket). eexists. eexists. split; [|split; [auto|split]].
  - apply Forall_forall. intros c J. apply in_map_iff in J as (b & <- & J). left. pose proof (PegRunes.byte_range b). lia.
  - apply (answers_some _ _ _ 200). vm_compute. reflexivity.
  - split; [left; reflexivity|]. intros (a & b & _ & _ & _ & C). cbn [rpos col] in C. unfold colAfter in C. lia.
Qed.
Print Assumptions C62_positions_refuted.

(** Two lines, the second one has a letter outside of ASCII before the error. *)
Definition badDigit : text := lines ["const A = 1;"; ("/* " ++ stringOf (utf8 [233]) ++ " */ const B = 08;")%string].
Example C62_case : answers (fun l => l) "f" badDigit
  (RErrors [mkReport (mkPosition 2 19 32) "IntLiteral" "strconv.ParseInt: parsing ""08"": invalid syntax" []]).
Proof. apply (answers_some _ _ _ 200). vm_compute. reflexivity. Qed.

(** What a report says is true of the text at the reported place: there is a number
    that is out of range or malformed, which the report quotes; or bytes that
    encode no code point; or the source is not accepted, there is one report, and it
    lists what could have come next. *)
Theorem C62_kinds : forall order fn data l, (forall l, Permutation l (order l)) -> answers order fn data (RErrors l) ->
  (forall r, In r l -> rexpected r = [] /\
     ((rrule r = "IntLiteral" /\ saysNumber data (offset (rpos r)) (rtext r)) \/ saysEncoding data (offset (rpos r)) (rtext r))) \/
  (exists r, l = [r] /\ rexpected r <> [] /\ rrule r = "" /\ saysExpected (rexpected r) (rtext r)).
Proof. exact kinds. Qed.
Print Assumptions C62_kinds.
(** A source with a number that is too large and a comment that is not UTF-8. *)
Example C62_case2 : answers (fun l => l) "f" (lines ["const A = 9223372036854775808;"] ++ textOf " // " ++ [ascii_of_nat 200] ++ textOf newline)
  (RErrors [mkReport (mkPosition 1 11 10) "IntLiteral" "strconv.ParseInt: parsing ""9223372036854775808"": value out of range" [];
            mkReport (mkPosition 1 35 34) "SourceChar" "invalid encoding" []]).
Proof. apply (answers_some _ _ _ 200). vm_compute. reflexivity. Qed.

(** The reports do not depend on the order in which the map of expected things is
    iterated. *)
Theorem C63_order : forall o1 o2 fn data r, (forall l, Permutation l (o1 l)) -> (forall l, Permutation l (o2 l)) ->
  answers o1 fn data r -> answers o2 fn data r.
Proof. intros o1 o2 fn data r H1 H2 [n H]. exists n. intros m L. rewrite <- (order_irrelevant o1 o2); auto. Qed.
Print Assumptions C63_order.
Example C63_case : forall l : list string, Permutation l (rev l).
Proof. intros. apply Permutation_rev. Qed.
Example C63_case2 : answers (@rev string) "f" (textOf "struct a { u8 x[") (RErrors
  [mkReport (mkPosition 1 17 16) "" "no match found, expected: ""..-"", ""/*"", ""//"", ""0"", ""0x"", ""\n"", ""]"", [ \t\r], [0-9], [A-Z_] or [a-zA-Z_]"
    ["""..-"""; """/*"""; """//"""; """0"""; """0x"""; """\n"""; """]"""; "[ \t\r]"; "[0-9]"; "[A-Z_]"; "[a-zA-Z_]"]]).
Proof. apply (answers_some _ _ _ 200). vm_compute. reflexivity. Qed.

(** A report that nothing matched depends only on the text up to ten bytes after
    the reported place: nothing written after it makes the source acceptable, or
    changes the report. *)
Theorem C64_local : forall order fn u t1 t2 r, answers order fn (u ++ t1) (RErrors [r]) -> rexpected r <> [] ->
  offset (rpos r) + 10 <= Z.of_nat (length u) -> answers order fn (u ++ t2) (RErrors [r]).
Proof. exact local. Qed.
Print Assumptions C64_local.
Example C64_case : exists r, answers (fun l => l) "f" (textOf "struct a { u8 x[$]; u8 y; }" ++ textOf " struct b { }") (RErrors [r]) /\
  rexpected r <> [] /\ offset (rpos r) + 10 <= Z.of_nat (length (textOf "struct a { u8 x[$]; u8 y; }")).
Proof.
  eexists. split; [apply (answers_some _ _ _ 200); vm_compute; reflexivity|]. split; [discriminate|]. vm_compute. congruence.
Qed.

(** The number of expressions that are evaluated to parse a source. *)
Definition evaluates (data : text) (c : Z) : Prop :=
  exists n ok v s, exprR g n "" (ERule "File") [] (startR data) = Ok (ok, v, [], s) /\ c = exprCnt s.

(** Parsing comes to an end, after a certain number of expressions. *)
Theorem C65_finishes_partial : forall data, exists c, evaluates data c /\ forall c', evaluates data c' -> c' = c.
Proof.
  intros data. destruct (file_runs data) as (ok & v & s & n & H). exists (exprCnt s). split.
  - exists n, ok, v, s. split; auto.
  - intros c (m & ok' & v' & s' & E & ->).
    pose proof (exprR_mono g m (Nat.max n m) "" (ERule "File") [] (startR data) ltac:(lia)) as M. rewrite E in M.
    rewrite (H (Nat.max n m)) in M by lia. specialize (M ltac:(discriminate)). inversion M. reflexivity.
Qed.
Print Assumptions C65_finishes_partial.

(** Structs declared inside of each other are parsed three times per level. *)
Theorem C65_exponential : forall d, length (nestedSource d) = (15 + 13 * d)%nat /\ (exists f, returns (nestedSource d) (Ok f)) /\
  exists c, evaluates (nestedSource d) c /\ 3 ^ Z.of_nat d <= c.
Proof.
  intros d. split; [apply nested_length|]. split; [apply nested_accepted|].
  destruct (file_runs (nestedSource d)) as (ok & v & s & n & H). exists (exprCnt s). split; [exists n, ok, v, s; split; auto|].
  assert (R : rest (base (startR (nestedSource d))) = nestedSource d) by (rewrite PegReportProofs.base_start; destruct (invalid _); reflexivity).
  destruct (source_cost d n "" [] _ _ _ _ _ R (H n (le_n _))) as (_ & _ & C).
  assert (Z0 : exprCnt (startR (nestedSource d)) = 0) by (unfold startR, arrive; destruct (invalid (rest _)); reflexivity). lia.
Qed.
Print Assumptions C65_exponential.

Lemma pow3 : forall i, 0 <= i -> i + 1 <= 3 ^ i.
Proof. apply natlike_ind; [cbn; lia|]. intros x H IH. rewrite Z.pow_succ_r by lia. lia. Qed.
(** No polynomial bounds the number of expressions in terms of the length of the
    source, not even for accepted sources. *)
Theorem C65_polynomial_refuted : forall k e, 0 <= k -> 0 <= e ->
  exists data f c, returns data (Ok f) /\ evaluates data c /\ k * (Z.of_nat (length data) + 1) ^ e < c.
Proof.
  intros k e K E. set (A := 16 + k). set (B := 13 * (e + 1)). set (i := A + 2 * B). set (j := 2 * i). set (d := Z.to_nat ((e + 1) * j)).
  destruct (C65_exponential d) as (L & (f & F) & c & C & P). exists (nestedSource d), f, c. split; auto. split; auto.
  assert (I0 : 0 <= i) by (unfold i, A, B; lia). pose proof (pow3 i I0) as P3.
  assert (J : A + B * j <= 3 ^ j).
  { unfold j. replace (2 * i) with (i + i) by lia. rewrite Z.pow_add_r by lia.
    assert (M : i * (i + 1) <= 3 ^ i * 3 ^ i) by (apply Z.mul_le_mono_nonneg; lia).
    assert (A0 : 16 <= A) by (unfold A; lia). assert (B0 : 0 <= B) by (unfold B; lia).
    assert (M2 : A + B * (i + i) <= i * (i + 1)) by (change (i * (i + 1)) with ((A + 2 * B) * (i + 1)); clearbody A B i; nia). lia. }
  assert (D : Z.of_nat d = (e + 1) * j) by (unfold d; rewrite Z2Nat.id; auto; unfold j; nia).
  assert (LN : Z.of_nat (length (nestedSource d)) + 1 <= 3 ^ j).
  { rewrite L. assert (X : 13 * Z.of_nat d = B * j) by (rewrite D; unfold B; lia). unfold A in J. lia. }
  assert (J0 : 0 <= j) by (unfold j; lia). assert (BJ : 0 <= B * j) by (unfold B; nia).
  eapply Z.lt_le_trans; [|exact P]. rewrite D. replace ((e + 1) * j) with (j * (e + 1)) by lia. rewrite Z.pow_mul_r by lia.
  rewrite Z.pow_add_r, Z.pow_1_r by lia.
  assert (KJ : k < 3 ^ j) by (unfold A in J; lia).
  set (q := 3 ^ j) in *. clearbody q. clear - LN KJ K E.
  assert (W : (Z.of_nat (length (nestedSource d)) + 1) ^ e <= q ^ e) by (apply Z.pow_le_mono_l; lia).
  assert (PE : 0 < q ^ e) by (apply Z.pow_pos_nonneg; lia). nia.
Qed.
Print Assumptions C65_polynomial_refuted.
Example C65_case : evaluates (nestedSource 0) 678 /\ evaluates (nestedSource 1) 2249 /\ evaluates (nestedSource 4) 63518.
Proof. repeat split; exists 300%nat; do 3 eexists; (split; [vm_compute; reflexivity|vm_compute; reflexivity]). Qed.

(** The number of expressions is at most exponential in the length of the source:
    it grows by no more than a third per byte. *)
Theorem C65_bound_partial : forall data c, evaluates data c ->
  c * 3 ^ Z.of_nat (length data) <= 1523 * 4 ^ Z.of_nat (length data).
Proof.
  intros data c (n & ok & v & s & E & ->).
  pose proof (upper n "" (ERule "File") [] (startR data) ok v [] s eq_refl E) as (_ & W).
  assert (R : rest (base (startR data)) = data) by (rewrite PegReportProofs.base_start; destruct (invalid _); reflexivity).
  assert (Z0 : exprCnt (startR data) = 0) by (unfold startR, arrive; destruct (invalid (rest _)); reflexivity).
  rewrite R in W. unfold spent in W. rewrite Z0, Z.sub_0_r in W. exact W.
Qed.
Print Assumptions C65_bound_partial.

(** It is polynomial for sources with a bounded nesting of braces, if no comment
    contains a brace. *)
Theorem C65_nesting_partial : forall data d c, plain data -> depth d data -> evaluates data c ->
  c <= (3978 * (Z.of_nat (length data) + 1) ^ 6) ^ (d + 2).
Proof.
  intros data d c P D (n & ok & v & s & E & ->). pose proof (nested_bound data d n ok v [] s P D E) as W.
  assert (Z0 : exprCnt (startR data) = 0) by (unfold startR, arrive; destruct (invalid (rest _)); reflexivity).
  unfold spent in W. rewrite Z0, Z.sub_0_r in W. exact W.
Qed.
Print Assumptions C65_nesting_partial.

Lemma plain_slash : forall x, ~ In "/"%char x -> plain x.
Proof.
  intros x N w (u & z & ->) C. destruct N. apply in_or_app. right. apply in_or_app. left. destruct C; left; reflexivity.
Qed.
Fixpoint prefixes (n : nat) (x : text) : list text := match n with O => [firstn 0 x] | S n => firstn (S n) x :: prefixes n x end.
Lemma depth_check : forall d x, forallb (fun a => count "{" a - count "}" a <=? d) (prefixes (length x) x) = true -> depth d x.
Proof.
  intros d x H a b ->. rewrite forallb_forall in H. specialize (H a). apply Z.leb_le, H. clear. rewrite app_length.
  assert (E : firstn (length a) (a ++ b) = a) by (rewrite firstn_app, Nat.sub_diag, firstn_all, app_nil_r; reflexivity).
  assert (G : forall n, (length a <= n)%nat -> In a (prefixes n (a ++ b))); [|apply G; lia].
  induction n as [|n IH]; intros L; [left; replace 0%nat with (length a) by lia; exact E|]. destruct (Nat.eq_dec (length a) (S n)) as [<-|N].
  - destruct a as [|c a]; [left; reflexivity|]. left. exact E.
  - right. apply IH. lia.
Qed.
(** The sources of [C65_exponential] are plain, and as deep as they are nested. *)
Example C65_nesting_case : (forall d, plain (nestedSource d)) /\ depth 5 (nestedSource 4) /\ ~ depth 4 (nestedSource 4) /\ evaluates (nestedSource 4) 63518.
Proof.
  split; [|split; [|split]].
  - intros d. apply plain_slash. unfold nestedSource. rewrite !in_app_iff. intros [J|[J|J]]; [cbn in J; intuition discriminate| |cbn in J; intuition discriminate].
    revert J. induction d as [|d IH]; cbn [nestedMember]; [cbn; intuition discriminate|]. rewrite !in_app_iff. intros [J|[J|J]]; auto; cbn in J; intuition discriminate.
  - apply depth_check. vm_compute. reflexivity.
  - intros D. specialize (D (firstn 45 (nestedSource 4)) (skipn 45 (nestedSource 4)) ltac:(symmetry; apply firstn_skipn)). vm_compute in D. congruence.
  - apply C65_case.
Qed.
(** Comments are fine as long as they have no braces. *)
Definition commented : text := textOf "/*a*/struct b{}".
Example C65_comment_case : plain commented /\ depth 1 commented /\ evaluates commented 479.
Proof.
  split; [|split].
  - intros w (u & z & E) C. unfold commented in E. destruct C as [v N|v N].
    + exfalso. repeat (destruct u as [|? u]; cbn in E; [discriminate E|try discriminate E; injection E as _ E]).
    + destruct u as [|? u].
      * cbn in E. injection E as E. destruct v as [|x v]; [discriminate E|]. cbn in E. injection E as <- E.
        destruct v as [|y v]; [intros c J; cbn in J; intuition (subst; vm_compute in *; congruence)|]. exfalso. cbn in E. injection E as <- E.
        destruct v as [|y v]; [discriminate E|]. cbn in E. injection E as <- E. apply N. exists ["a"%char], v. reflexivity.
      * exfalso. cbn in E. injection E as _ E. repeat (destruct u as [|? u]; cbn in E; [discriminate E|try discriminate E; injection E as _ E]).
  - apply depth_check. vm_compute. reflexivity.
  - exists 300%nat. do 3 eexists. split; [vm_compute; reflexivity|vm_compute; reflexivity].
Qed.
