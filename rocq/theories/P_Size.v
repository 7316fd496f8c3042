(** C79: the length of a message lies in the span that its declaration gives. *)
From Coq Require Import ZArith String List Bool Lia.
From Coq Require Import ZifyBool ZifyNat.
From Verif Require Import Base Ast InspectModel InspectSpec GoLang GenModel GenDecode GenCheck WireSpec PackageSpec PackageProofs PackageFacts
  WireProofs GenExamples GenWitness SizeSpec SizeProofs SizeLeast.
Import ListNotations.
Open Scope string_scope.
Open Scope list_scope.
Open Scope Z_scope.

(** Whatever is parsed, and however deep one looks into nested structs: the number of
    bytes taken is in the span. *)
Theorem C79_sizes : forall camel os fs r p, package camel os fs r p ->
  forall s fs0 data args, validCall camel fs r s fs0 data args ->
  forall fs1 rest, parses camel p s fs0 data args fs1 rest ->
  forall k, within (spanOf r k s) (blen data - blen rest).
Proof. intros camel os fs r p PK s fs0 data args VC fs1 rest H k. exact (parse_span camel os fs r p PK s fs0 data args fs1 rest k VC H). Qed.
Print Assumptions C79_sizes.

(** Data shorter than the lower end is never accepted. *)
Theorem C79_short : forall camel os fs r p, package camel os fs r p ->
  forall s fs0 data args, validCall camel fs r s fs0 data args ->
  forall k l h, spanOf r k s = Some (l, h) -> blen data < l ->
  forall fs1 rest, ~ parses camel p s fs0 data args fs1 rest.
Proof.
  intros camel os fs r p PK s fs0 data args VC k l h E L fs1 rest H.
  destruct (C79_sizes camel os fs r p PK s fs0 data args VC fs1 rest H k) as (l' & h' & E' & L' & _).
  rewrite E in E'. injection E' as <- <-. unfold blen in *. lia.
Qed.
Print Assumptions C79_short.

(** From data longer than the upper end, the excess is left over. *)
Theorem C79_long : forall camel os fs r p, package camel os fs r p ->
  forall s fs0 data args, validCall camel fs r s fs0 data args ->
  forall k l h, spanOf r k s = Some (l, Some h) ->
  forall fs1 rest, parses camel p s fs0 data args fs1 rest -> blen data - h <= blen rest.
Proof.
  intros camel os fs r p PK s fs0 data args VC k l h E fs1 rest H.
  destruct (C79_sizes camel os fs r p PK s fs0 data args VC fs1 rest H k) as (l' & h' & E' & _ & L').
  rewrite E in E'. injection E' as <- <-. specialize (L' _ eq_refl). lia.
Qed.
Print Assumptions C79_long.

(** Declarations with an empty span accept nothing. *)
Theorem C79_none : forall camel os fs r p, package camel os fs r p ->
  forall s fs0 data args, validCall camel fs r s fs0 data args ->
  forall k, spanOf r k s = None -> forall fs1 rest, ~ parses camel p s fs0 data args fs1 rest.
Proof.
  intros camel os fs r p PK s fs0 data args VC k E fs1 rest H.
  destruct (C79_sizes camel os fs r p PK s fs0 data args VC fs1 rest H k) as (l' & h' & E' & _). congruence.
Qed.
Print Assumptions C79_none.

(** Messages of a fixed length: what remains is the data without its first bytes. *)
Theorem C79_fixed : forall camel os fs r p, package camel os fs r p ->
  forall s fs0 data args, validCall camel fs r s fs0 data args ->
  forall k n, spanOf r k s = exactly n ->
  forall fs1 rest, parses camel p s fs0 data args fs1 rest -> rest = skipn (Z.to_nat n) data.
Proof.
  intros camel os fs r p PK s fs0 data args VC k n E fs1 rest H.
  destruct (C79_sizes camel os fs r p PK s fs0 data args VC fs1 rest H k) as (l & h & E' & L & U).
  rewrite E in E'. injection E' as <- <-. specialize (U _ eq_refl). assert (BL : blen data - blen rest = n) by lia.
  destruct (suffix camel os fs r p PK s fs0 data args VC fs1 rest H) as [w ->].
  unfold blen in BL. rewrite app_length in BL. replace (Z.to_nat n) with (List.length w) by lia. symmetry. apply skip_app.
Qed.
Print Assumptions C79_fixed.

(** The lower end is reached by plain declarations: so many zeros are a message,
    whatever follows them. *)
Theorem C79_least : forall camel os fs r p, package camel os fs r p ->
  forall k s args l h tail, plain r k s -> spanOf r k s = Some (l, h) ->
  validCall camel fs r s (blank camel (Constant r) s) (repeat 0 (Z.to_nat l) ++ tail) args ->
  exists fs1, parses camel p s (blank camel (Constant r) s) (repeat 0 (Z.to_nat l) ++ tail) args fs1 tail.
Proof. exact zeros_parse. Qed.
Print Assumptions C79_least.

(** A case: messages of [demo] are from 7 to 525 bytes long; the one of 15 bytes is
    in that span, and its first 6 bytes are not a message.
    [struct spot { u8 x; u8 y IN [0..4]; }  struct row { struct spot p[3]; u16 w; }  struct rows { u8 n; struct row r[n]; struct row last; nulterm name; }]:
    a row takes 8 bytes, rows take 10 bytes or more, and 10 zeros are rows.
    [struct few { u64 n IN [2..3, 5]; u16 a[n]; }] takes 12 to 18 bytes. *)
Definition spot : struct := mkStruct "spot" [] (Some [u8 "x"; MField "y" (TInt 8 (Some [mkRange (ILit 0) (Some (ILit 4))]))]).
Definition row : struct := mkStruct "row" [] (Some [MField "p" (TFixed (TStruct "spot") (ILit 3)); u16 "w"]).
Definition rows : struct := mkStruct "rows" [] (Some [u8 "n"; MField "r" (TVar (TStruct "row") (Some (LRef (local "n")))); MField "last" (TStruct "row"); MField "name" TNul]).
Definition never : struct := mkStruct "never" [] (Some [u8 "n"; MUnion "u" (local "n") None [UCase None [u8 "x"; MFail]]]).
Definition few : struct := mkStruct "few" [] (Some [MField "n" (TInt 64 (Some [mkRange (ILit 2) (Some (ILit 3)); mkRange (ILit 5) None])); MField "a" (TVar (TInt 16 None) (Some (LRef (local "n"))))]).
Definition rowStructs := [spot; row; rows; never; few].
Definition rowsR := theRes (one rowStructs).
Lemma rows_plain : plain rowsR 3 rows.
Proof.
  unfold plain, plainS. cbn [members_of smembers rows].
  assert (PP : forall k, plainIn rowsR (S k) "spot").
  { intros k. cbn [plainIn]. change (Struct rowsR "spot") with (Some spot). intros m M. cbn in M. unfold u8 in M.
    destruct M as [<-|[<-|[]]]; do 2 eexists; (split; [reflexivity|]); cbn [plainT]; intros l E; try discriminate.
    injection E as <-. apply (inList_spec rowsR). vm_compute. reflexivity. }
  assert (PR : forall k, plainIn rowsR (S (S k)) "row").
  { intros k. cbn [plainIn]. change (Struct rowsR "row") with (Some row). intros m M. cbn in M. unfold u16 in M.
    destruct M as [<-|[<-|[]]]; do 2 eexists; (split; [reflexivity|]); cbn [plainT]; [apply PP|discriminate]. }
  intros m M. unfold u8 in M. cbn in M. destruct M as [<-|[<-|[<-|[<-|[]]]]]; do 2 eexists; (split; [reflexivity|]); cbn [plainT]; auto.
  - discriminate.
  - split; [reflexivity|]. exists 8, None. split; [reflexivity|discriminate].
Qed.
Example C79_case :
  spanOf demoR 1 msg = Some (7, Some 525) /\
  within (spanOf demoR 1 msg) (blen (msgBytes ++ msgRest) - blen msgRest) /\
  (forall fs1 rest, ~ parses camelX demoP msg (blank camelX (Constant demoR) msg) (firstn 6 msgBytes) [optsV 2] fs1 rest) /\
  spanOf rowsR 2 row = exactly 8 /\ spanOf rowsR 3 rows = Some (10, None) /\ spanOf rowsR 3 never = None /\ spanOf rowsR 0 few = Some (12, Some 18) /\
  exists fs1, parses camelX (theProg (one rowStructs)) rows (blank camelX (Constant rowsR) rows) (repeat 0 10 ++ [7; 8]) [] fs1 [7; 8].
Proof.
  split; [vm_compute; reflexivity|]. split.
  { apply (C79_sizes camelX osX demo demoR demoP demo_package msg _ _ _ (msg_call _ 2 msg_bytes ltac:(lia)) _ _ msg_parses). }
  split.
  { assert (GB : goBytes (firstn 6 msgBytes)) by (apply bytes_ok; vm_compute; reflexivity).
    apply (C79_short camelX osX demo demoR demoP demo_package msg _ _ _ (msg_call _ 2 GB ltac:(lia)) 1 7 (Some 525)); vm_compute; reflexivity. }
  split; [vm_compute; reflexivity|]. split; [vm_compute; reflexivity|]. split; [vm_compute; reflexivity|]. split; [vm_compute; reflexivity|].
  assert (PK : isPackage (one rowStructs) = true) by (vm_compute; reflexivity).
  apply (C79_least camelX osX (one rowStructs) rowsR _ (package_of _ PK) 3 rows [] 10 None [7; 8] rows_plain); [vm_compute; reflexivity|].
  apply fresh_call; auto; try (vm_compute; reflexivity). { cbn; auto. } apply bytes_ok; vm_compute; reflexivity.
Qed.
