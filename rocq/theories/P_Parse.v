(** Properties C12-C27: what callers of generated parsers can rely on.

    [package camel os fs r p]: [p] is what gen.Marshallers makes of the files
    [fs], which passed the static checks of GenCheck.v.  [validCall]: a call
    [x.Parse(data, args...)] that Go accepts; [x] holds the fields [fs0].
    [parses], [fails], [panics], [neverEnds]: how the call ends (PackageSpec.v).
    [encStruct], [enc]...: the wire format (WireSpec.v).
    [present contexts fields members m]: going by the tags in [fields], the
    member [m] is in a union case that is taken (or not in a union). *)
From Coq Require Import ZArith String List Bool Lia.
From Verif Require Import Base Ast IntervalsModel InspectModel InspectSpec InspectProofs BranchProofs GoLang GenModel GenDecode GenCheck
  WireSpec WireProofs WireComplete GenTerm GenSafe WireFacts ReachSpec ReachProofs PackageSpec PackageProofs PackageFacts PackageMore ParseFacts
  Guarded GenExamples GenWitness.
Import ListNotations.
Open Scope string_scope.
Open Scope list_scope.
Open Scope Z_scope.

(** C12. Whatever is accepted is an encoding, and fields and rest are as described.
    Unions have a default here; see C18 for the others. *)
Theorem C12_only_encodings_accepted : forall camel os fs r p, package camel os fs r p ->
  forall s fs0 data args, validCall camel fs r s fs0 data args -> ptrFiles fs = true -> (forall s', defines fs s' -> forallb totalM (members_of s') = true) ->
  forall fs1 rest, parses camel p s fs0 data args fs1 rest ->
  exists w, data = w ++ rest /\ encStruct camel (Constant r) (Struct r) False (contextsOf s args) s fs0 w rest fs1.
Proof. intros camel os fs r p PK s fs0 data args VC PT T. exact (parses_encodes camel os fs r p PK s fs0 data args VC PT False (or_intror T)). Qed.
Print Assumptions C12_only_encodings_accepted.

(** The same for all unions, an unlisted tag standing for an empty union. *)
Theorem C12_accepted_shape : forall camel os fs r p, package camel os fs r p ->
  forall s fs0 data args, validCall camel fs r s fs0 data args -> ptrFiles fs = true -> forall fs1 rest, parses camel p s fs0 data args fs1 rest ->
  exists w, data = w ++ rest /\ encStruct camel (Constant r) (Struct r) True (contextsOf s args) s fs0 w rest fs1.
Proof. intros camel os fs r p PK s fs0 data args VC PT. exact (parses_encodes camel os fs r p PK s fs0 data args VC PT True (or_introl I)). Qed.
Print Assumptions C12_accepted_shape.

(** Every encoding is accepted, if the elements of counted arrays take at least a
    byte or lengths have at most 32 bits ([roomyFiles]). *)
Theorem C12_encodings_accepted : forall camel os fs r p, package camel os fs r p ->
  forall s fs0 data args, validCall camel fs r s fs0 data args -> ptrFiles fs = true -> roomyFiles fs r -> blen data <= maxData ->
  forall (lenient : Prop) w rest fs1, data = w ++ rest ->
  encStruct camel (Constant r) (Struct r) lenient (contextsOf s args) s fs0 w rest fs1 -> parses camel p s fs0 data args fs1 rest.
Proof. exact encodes_parses. Qed.
Print Assumptions C12_encodings_accepted.

(** Otherwise not all are: [struct hollow { u64 n; struct empty xs[n]; }] panics on
    a number that is followed by as many empty structs. *)
Theorem C12_encodings_accepted_refuted : exists camel os fs r p s fs0 data args fs1 m, package camel os fs r p /\
  validCall camel fs r s fs0 data args /\ ptrFiles fs = true /\ blen data <= maxData /\
  encStruct camel (Constant r) (Struct r) False (contextsOf s args) s fs0 data [] fs1 /\ panics camel p s fs0 data args m.
Proof.
  destruct hollow_encodes as [fs1 E].
  exists camelX, osX, hollowFiles, hollowR, (theProg hollowFiles), hollow, (blank camelX (Constant hollowR) hollow), bigData, [], fs1, "makeslice: len out of range".
  split; [apply package_of; vm_compute; reflexivity|]. split; [|split; [reflexivity|split; [vm_compute; discriminate|split; [exact E|exact hollow_panics]]]].
  apply fresh_call; auto; try (vm_compute; reflexivity). { right. now left. } { apply bytes_ok; vm_compute; reflexivity. }
Qed.
Print Assumptions C12_encodings_accepted_refuted.

(** Encodings are accepted, everything else gets an error. *)
Theorem C12_accepts_exactly : forall camel os fs r p, package camel os fs r p ->
  forall s fs0 data args, validCall camel fs r s fs0 data args -> ptrFiles fs = true -> narrowFiles fs r ->
  forall rank, progress fs r rank -> (forall s', defines fs s' -> forallb totalM (members_of s') = true) -> blen data <= maxData ->
  (exists w rest fs1, data = w ++ rest /\ encStruct camel (Constant r) (Struct r) False (contextsOf s args) s fs0 w rest fs1 /\
     parses camel p s fs0 data args fs1 rest) \/
  ((forall w rest fs1, data = w ++ rest -> ~ encStruct camel (Constant r) (Struct r) False (contextsOf s args) s fs0 w rest fs1) /\
   exists e, fails camel p s fs0 data args e).
Proof. intros camel os fs r p PK s fs0 data args VC PT NA rank PR TT L. exact (decides camel os fs r p PK s fs0 data args VC PT NA rank PR L False (or_intror TT)). Qed.
Print Assumptions C12_accepts_exactly.

(** The same for all unions, an unlisted tag standing for an empty union. *)
Theorem C12_accepts_exactly_lenient : forall camel os fs r p, package camel os fs r p ->
  forall s fs0 data args, validCall camel fs r s fs0 data args -> ptrFiles fs = true -> narrowFiles fs r ->
  forall rank, progress fs r rank -> blen data <= maxData ->
  (exists w rest fs1, data = w ++ rest /\ encStruct camel (Constant r) (Struct r) True (contextsOf s args) s fs0 w rest fs1 /\
     parses camel p s fs0 data args fs1 rest) \/
  ((forall w rest fs1, data = w ++ rest -> ~ encStruct camel (Constant r) (Struct r) True (contextsOf s args) s fs0 w rest fs1) /\
   exists e, fails camel p s fs0 data args e).
Proof. intros camel os fs r p PK s fs0 data args VC PT NA rank PR L. exact (decides camel os fs r p PK s fs0 data args VC PT NA rank PR L True (or_introl I)). Qed.
Print Assumptions C12_accepts_exactly_lenient.

(** The package of GenExamples.v meets all conditions; a message and a string
    that is not one. *)
Example C12_case : package camelX osX demo demoR demoP /\ ptrFiles demo = true /\ solidFiles demo demoR /\ narrowFiles demo demoR /\
  progress demo demoR demoRank /\ (forall s', defines demo s' -> forallb totalM (members_of s') = true) /\
  validCall camelX demo demoR msg (blank camelX (Constant demoR) msg) (msgBytes ++ msgRest) [optsV 2] /\
  parses camelX demoP msg (blank camelX (Constant demoR) msg) (msgBytes ++ msgRest) [optsV 2] msgFields msgRest /\
  fails camelX demoP point (blank camelX (Constant demoR) point) [1; 4] [] "integer constraint violated".
Proof.
  repeat (split; [first [exact demo_package|exact demo_ptr|exact demo_solid|exact demo_narrow|exact demo_progress|exact demo_total|exact (msg_call _ 2 msg_bytes ltac:(lia))|exact msg_parses]|]).
  apply (fails_dec camelX osX demo demoR demoP demo_package _ _ _ _ (point_call [1; 4] ltac:(apply bytes_ok; vm_compute; reflexivity))).
  exists 3%nat. reflexivity.
Qed.

(** C13. No panic of any kind at any point of any run, with lengths of at most 32 bits,
    which may be in wider fields whose constraints allow only such numbers. *)
Theorem C13_never_panics : forall camel os fs r p, package camel os fs r p ->
  forall s fs0 data args, validCall camel fs r s fs0 data args -> narrowFiles fs r ->
  forall n m, snd (runParse camel p n s fs0 data args) <> SPanic m.
Proof. exact never_panics. Qed.
Print Assumptions C13_never_panics.

(** Without the restriction it is false: [struct big { u64 n; u8 a[n]; }] panics on
    a length of 2^63. *)
Theorem C13_wide_lengths_refuted : exists camel os fs r p s fs0 data args m, package camel os fs r p /\
  validCall camel fs r s fs0 data args /\ ptrFiles fs = true /\ panics camel p s fs0 data args m.
Proof. 
  exists camelX, osX, (one [big]), (theRes (one [big])), (theProg (one [big])), big, (blank camelX (Constant (theRes (one [big]))) big), bigData, [], "makeslice: len out of range".
  split; [apply package_of; vm_compute; reflexivity|]. split; [|split; [reflexivity|exact big_panics]].
  apply fresh_call; auto; try (vm_compute; reflexivity). { now left. } { apply bytes_ok; vm_compute; reflexivity. }
 Qed.
Print Assumptions C13_wide_lengths_refuted.

(** [struct kept { u64 n IN [1..1000]; u8 a[n]; }] *)
Definition kept : struct := mkStruct "kept" [] (Some [MField "n" (TInt 64 (Some [mkRange (ILit 1) (Some (ILit 1000))])); MField "a" (TVar (TInt 8 None) (Some (LRef (local "n"))))]).
Example C13_case : narrowFiles demo demoR /\ defines demo msg /\ defines demo tail /\
  package camelX osX (one [kept]) (theRes (one [kept])) (theProg (one [kept])) /\ narrowFiles (one [kept]) (theRes (one [kept])) /\ defines (one [kept]) kept.
Proof.
  split; [exact demo_narrow|]. split; [exact demo_msg|]. split; [exact demo_tail|]. split; [apply package_of; vm_compute; reflexivity|]. split.
  - intros s D f I. destruct D as (_ & fl & [<-|[]] & [<-|[]]). cbn in I. destruct I as [<-|[]]. split; [|intros E1; exfalso; apply E1; reflexivity].
    intros _ sz cst J. cbn in J. destruct J as [J|[J|[]]]; [|discriminate]. injection J as <- <-. right. eexists. split; [reflexivity|].
    intros z (g & a & b & [<-|[]] & E & B). cbn in E. injection E as <- <-. assert (1000 < 2 ^ 32) by (vm_compute; reflexivity). lia.
  - split; [reflexivity|]. eexists. split; [left; reflexivity|]. cbn. auto.
Qed.

(** C14. Every call ends, provided a struct that can be entered again before any byte
    is consumed has a smaller rank, and elements of arrays without a count consume
    input. *)
Theorem C14_terminates : forall camel os fs r p, package camel os fs r p ->
  forall s fs0 data args, validCall camel fs r s fs0 data args -> ptrFiles fs = true -> forall rank, progress fs r rank ->
  (exists fs1 rest, parses camel p s fs0 data args fs1 rest) \/ (exists e, fails camel p s fs0 data args e) \/
  (exists m, panics camel p s fs0 data args m).
Proof. exact terminates. Qed.
Print Assumptions C14_terminates.

(** Without the provisos it is false: [struct empty {}  struct list { struct empty xs[]; }]
    loops for ever on any data ... *)
Theorem C14_empty_elements_refuted : exists camel os fs r p s fs0, package camel os fs r p /\ ptrFiles fs = true /\
  forall b c, goBytes (b :: c) -> validCall camel fs r s fs0 (b :: c) [] /\ neverEnds camel p s fs0 (b :: c) [].
Proof. 
  exists camelX, osX, loopFiles, (theRes loopFiles), (theProg loopFiles), listS, (blank camelX (Constant (theRes loopFiles)) listS).
  split; [apply package_of; vm_compute; reflexivity|]. split; [reflexivity|]. intros b c GB. split; [|now apply list_loops].
  apply fresh_call; auto; try (vm_compute; reflexivity). right; now left.
 Qed.
Print Assumptions C14_empty_elements_refuted.

(** ... and [struct node { struct node next; }] recurses for ever. *)
Theorem C14_recursion_refuted : exists camel os fs r p s fs0, package camel os fs r p /\ ptrFiles fs = true /\
  forall data, goBytes data -> validCall camel fs r s fs0 data [] /\ neverEnds camel p s fs0 data [].
Proof. 
  exists camelX, osX, nodeFiles, (theRes nodeFiles), (theProg nodeFiles), node, (blank camelX (Constant (theRes nodeFiles)) node).
  split; [apply package_of; vm_compute; reflexivity|]. split; [reflexivity|]. intros data GB. split; [|now apply node_loops].
  apply fresh_call; auto; try (vm_compute; reflexivity). now left.
 Qed.
Print Assumptions C14_recursion_refuted.

Example C14_case : progress demo demoR demoRank /\ ptrFiles demo = true.
Proof. split; [exact demo_progress|exact demo_ptr]. Qed.

(** C15. What is returned is a suffix of the data.  (After an [ignore] it is the empty
    suffix.)  The interpreter has no way to write to the data. *)
Theorem C15_suffix : forall camel os fs r p, package camel os fs r p ->
  forall s fs0 data args, validCall camel fs r s fs0 data args -> forall fs1 rest, parses camel p s fs0 data args fs1 rest ->
  exists w, data = w ++ rest.
Proof. exact suffix. Qed.
Print Assumptions C15_suffix.

Example C15_case : exists data args fs1 rest, validCall camelX demo demoR msg (blank camelX (Constant demoR) msg) data args /\
  parses camelX demoP msg (blank camelX (Constant demoR) msg) data args fs1 rest /\ rest <> [].
Proof.
  exists (msgBytes ++ msgRest), [optsV 2], msgFields, msgRest. split; [exact (msg_call _ 2 msg_bytes ltac:(lia))|]. split; [exact msg_parses|discriminate].
Qed.

(** C16. A parsed field with a constraint holds a listed value ... *)
Theorem C16_constraint_holds : forall camel os fs r p, package camel os fs r p ->
  forall s fs0 data args, validCall camel fs r s fs0 data args -> ptrFiles fs = true -> forall fs1 rest, parses camel p s fs0 data args fs1 rest ->
  forall nm sz l, present camel r (contextsOf s args) fs1 (members_of s) (MField nm (TInt sz (Some l))) ->
  exists x, alookup (camel nm) fs1 = Some (VInt x) /\ in_list (Constant r) l x.
Proof. exact constrained. Qed.
Print Assumptions C16_constraint_holds.

(** ... so do all elements of an array (also an array inside a nested struct, which is a parse of its own, C26). *)
Theorem C16_constraint_holds_elements : forall camel os fs r p, package camel os fs r p ->
  forall s fs0 data args, validCall camel fs r s fs0 data args -> ptrFiles fs = true -> forall fs1 rest, parses camel p s fs0 data args fs1 rest ->
  forall nm t sz l, element t = Some (TInt sz (Some l)) -> present camel r (contextsOf s args) fs1 (members_of s) (MField nm t) ->
  exists vs, alookup (camel nm) fs1 = Some (VList vs) /\ forall v, In v vs -> exists x, v = VInt x /\ in_list (Constant r) l x.
Proof. exact constrained_elements. Qed.
Print Assumptions C16_constraint_holds_elements.

(** When the parser gets to such a field and an unlisted value is ahead, that error is returned. *)
Theorem C16_violation_is_error : forall camel os fs r p, package camel os fs r p ->
  forall s fs0 data args, validCall camel fs r s fs0 data args -> ptrFiles fs = true -> roomyFiles fs r -> blen data <= maxData ->
  forall (lenient : Prop) cenv pos f w c sz l x,
  visits camel (Constant r) (Struct r) lenient (contextsOf s args) s fs0 data cenv pos (AtType (TInt sz (Some l))) f (w ++ c) ->
  bigEndian w x -> blen w = sz / 8 -> ~ in_list (Constant r) l x -> fails camel p s fs0 data args "integer constraint violated".
Proof. intros camel os fs r p PK s fs0 data args VC PT SO L lenient cenv pos f w c sz l x V B W N. exact (fault_error camel os fs r p PK s fs0 data args VC PT SO L lenient cenv pos _ f (w ++ c) _ V (F_constraint _ _ _ _ _ _ sz l f w x c B W N)). Qed.
Print Assumptions C16_violation_is_error.

Example C16_case : present camelX demoR (contextsOf msg [optsV 2]) msgFields (members_of msg) (MField "count" (TInt 8 (Some [mkRange (ILit 0) (Some (ILit 4))]))) /\
  visits camelX (Constant demoR) (Struct demoR) True [] point (blank camelX (Constant demoR) point) [1; 4] [] 1
    (AtType (TInt 8 (Some [mkRange (ILit 1) (Some (IConst "LIMIT"))]))) [("X", VInt 1); ("Y", VInt 0)] ([4] ++ []) /\
  bigEndian [4] 4 /\ ~ in_list (Constant demoR) [mkRange (ILit 1) (Some (IConst "LIMIT"))] 4.
Proof.
  assert (B : forall x, is_byte x -> bigEndian [x] x).
  { intros x X. change [x] with ([] ++ [x]). replace x with (256 * 0 + x) at 2 by lia. constructor; [constructor|auto]. }
  split; [constructor; cbn; tauto|]. split.
  - apply V_field with (nm := "y").
    refine (V_member camelX _ _ _ [] point (blank camelX (Constant demoR) point) [1; 4] [] 0 [u8 "x"] _ [] _ [1] [4] _ (V_start _ _ _ _ _ point _ _) _).
    refine (EncMs_cons _ _ _ _ _ 0 (u8 "x") [] _ [1] [] [4] _ _ _ (EncMs_nil _ _ _ _ _ _ _ _)).
    refine (EncM_field _ _ _ _ _ 0 "x" (TInt 8 None) (blank camelX (Constant demoR) point) (VInt 1) [1] [4] _).
    constructor; [apply B; unfold is_byte; lia|reflexivity|discriminate].
  - split; [apply B; unfold is_byte; lia|]. intros (g & a & b & [<-|[]] & E & L). vm_compute in E. injection E as <- <-. lia.
Qed.

(** C17. The bytes of a union are an encoding of the members of the taken case: the
    first one listing the tag, or the default if none does ([takes]). *)
Theorem C17_taken_case_parsed : forall camel os fs r p, package camel os fs r p ->
  forall s fs0 data args, validCall camel fs r s fs0 data args -> ptrFiles fs = true -> forall fs1 rest, parses camel p s fs0 data args fs1 rest ->
  forall u tag len cs, present camel r (contextsOf s args) fs1 (members_of s) (MUnion u tag len cs) ->
  exists x pre w tl more fsa fsb, data = pre ++ w ++ tl ++ more /\ refers camel (contextsOf s args) fs1 tag x /\
    (forall c, takes (Constant r) cs x c ->
       encMs camel (Constant r) (Struct r) True (contextsOf s args) (blen pre) (ucase_members c) fsa w (match len with None => tl | Some _ => [] end) fsb) /\
    ((forall c, ~ takes (Constant r) cs x c) -> w = []).
Proof. exact case_in. Qed.
Print Assumptions C17_taken_case_parsed.

(** Fields of other cases are left alone. *)
Theorem C17_other_cases_untouched : forall camel os fs r p, package camel os fs r p ->
  forall s fs0 data args, validCall camel fs r s fs0 data args -> ptrFiles fs = true -> forall fs1 rest, parses camel p s fs0 data args fs1 rest ->
  forall u tag len cs x c c' nm, present camel r (contextsOf s args) fs1 (members_of s) (MUnion u tag len cs) ->
  refers camel (contextsOf s args) fs1 tag x -> takes (Constant r) cs x c -> In c' cs -> c' <> c ->
  In nm (flat_map fieldNames (ucase_members c')) -> alookup (camel nm) fs1 = alookup (camel nm) fs0.
Proof. exact other_case_kept. Qed.
Print Assumptions C17_other_cases_untouched.

(** Getting to a [fail] is an error. *)
Theorem C17_fail_is_error : forall camel os fs r p, package camel os fs r p ->
  forall s fs0 data args, validCall camel fs r s fs0 data args -> ptrFiles fs = true -> roomyFiles fs r -> blen data <= maxData ->
  forall (lenient : Prop) cenv pos f c,
  visits camel (Constant r) (Struct r) lenient (contextsOf s args) s fs0 data cenv pos (AtMember MFail) f c ->
  fails camel p s fs0 data args "disallowed case".
Proof. intros camel os fs r p PK s fs0 data args VC PT SO L lenient cenv pos f c V. exact (fault_error camel os fs r p PK s fs0 data args VC PT SO L lenient cenv pos _ f c _ V (F_fail _ _ _ _ _ _ f c)). Qed.
Print Assumptions C17_fail_is_error.

Example C17_case : present camelX demoR (contextsOf msg [optsV 2]) msgFields (members_of msg) body /\
  refers camelX (contextsOf msg [optsV 2]) msgFields (local "tag") 1 /\
  takes (Constant demoR) bodyCases 1 (UCase (is 1) [MField "p" (TStruct "point"); MField "q" (TStruct "point")]) /\
  visits camelX (Constant demoR) (Struct demoR) True (contextsOf msg [optsV 2]) msg
    (("Tag", VInt 9) :: ("Len", VInt 1) :: tl (tl (blank camelX (Constant demoR) msg))) [9; 1; 0] (contextsOf msg [optsV 2]) 2
    (AtMember MFail) (("Tag", VInt 9) :: ("Len", VInt 1) :: ("Pos", VInt 2) :: tl (tl (tl (blank camelX (Constant demoR) msg)))) [0].
Proof.
  assert (B : forall x, is_byte x -> bigEndian [x] x).
  { intros x X. change [x] with ([] ++ [x]). replace x with (256 * 0 + x) at 2 by lia. constructor; [constructor|auto]. }
  split; [constructor; cbn; tauto|]. split; [reflexivity|]. split.
  - left. exists [], (tl bodyCases). split; [reflexivity|]. split; [|constructor]. eexists. split; [reflexivity|].
    exists (mkRange (ILit 1) None), 1, 1. split; [now left|]. split; [reflexivity|lia].
  - refine (V_member _ _ _ _ _ _ _ _ _ 2 [] MFail [] _ [] [0] _ _ (EncMs_nil _ _ _ _ _ _ _ _)).
    eapply V_case_len with (u := "body") (tag := local "tag") (f := local "len") (cs := bodyCases) (x := 9) (cse := UCase (is 9) [MFail]) (rest := []).
    + refine (V_member camelX _ _ _ _ msg _ [9; 1; 0] _ 0 [u8 "tag"; u8 "len"; MField "pos" TPtr] _ (skipn 4 (members_of msg)) _ [9; 1] [0] _ (V_start _ _ _ _ _ msg _ _) _).
      refine (EncMs_cons _ _ _ _ _ 0 (u8 "tag") _ _ [9] [1] [0] _ _ (EncM_field _ _ _ _ _ 0 "tag" (TInt 8 None) _ (VInt 9) [9] [1; 0] _) _).
      { constructor; [apply (B 9); unfold is_byte; lia|reflexivity|discriminate]. }
      refine (EncMs_cons _ _ _ _ _ 1 (u8 "len") _ _ [1] [] [0] _ _ (EncM_field _ _ _ _ _ 1 "len" (TInt 8 None) _ (VInt 1) [1] [0] _) _).
      { constructor; [apply (B 1); unfold is_byte; lia|reflexivity|discriminate]. }
      refine (EncMs_cons _ _ _ _ _ 2 (MField "pos" TPtr) _ _ [] [] [0] _ _ (EncM_field _ _ _ _ _ 2 "pos" TPtr _ (VInt 2) [] [0] _) (EncMs_nil _ _ _ _ _ _ _ _)).
      constructor.
    + reflexivity.
    + reflexivity.
    + left. exists (firstn 3 bodyCases), (skipn 4 bodyCases). split; [reflexivity|]. split.
      * eexists. split; [reflexivity|]. exists (mkRange (ILit 9) None), 9, 9. split; [now left|]. split; [reflexivity|lia].
      * repeat constructor; intros (l & E & g & a & b & I & E' & L'); injection E as <-; destruct I as [<-|[]]; injection E' as <- <-; lia.
Qed.

(** C18 is false: a union without a default accepts tags that no case lists.
    [struct pick { u8 t; union u[t] { 1: u8 x; }; }] on the byte 2. *)
Theorem C18_unmatched_tag_refuted : exists camel os fs r p s fs0 data args fs1 rest, package camel os fs r p /\
  validCall camel fs r s fs0 data args /\ parses camel p s fs0 data args fs1 rest /\
  exists u tag cs x, In (MUnion u tag None cs) (members_of s) /\ refers camel (contextsOf s args) fs1 tag x /\
    (forall c, ~ takes (Constant r) cs x c).
Proof. 
  exists camelX, osX, pickFiles, (theRes pickFiles), (theProg pickFiles), pick, [("T", VInt 0); ("X", VInt 0)], [2], [], [("T", VInt 2); ("X", VInt 0)], [].
  split; [exact pick_package|]. split; [apply pick_call; lia|]. split; [apply pick_parses; lia|].
  exists "u", (local "t"), [UCase (is 1) [u8 "x"]], 2. split; [cbn; auto|]. split; [reflexivity|].
  intros c [(pre & post & E & (l & EL & g & a & b & I & RB & LE) & _)|(_ & [<-|[]] & L)]; [|discriminate].
  destruct pre as [|? [|? ?]]; try discriminate. injection E as <-. injection EL as <-. destruct I as [<-|[]]. injection RB as <- <-. lia.
 Qed.
Print Assumptions C18_unmatched_tag_refuted.

(** What happens instead: the union is empty (C17) and its fields keep their values. *)
Theorem C18_unmatched_tag_is_empty : forall camel os fs r p, package camel os fs r p ->
  forall s fs0 data args, validCall camel fs r s fs0 data args -> ptrFiles fs = true -> forall fs1 rest, parses camel p s fs0 data args fs1 rest ->
  forall u tag len cs x nm, present camel r (contextsOf s args) fs1 (members_of s) (MUnion u tag len cs) ->
  refers camel (contextsOf s args) fs1 tag x -> (forall c, ~ takes (Constant r) cs x c) ->
  In nm (fieldNames (MUnion u tag len cs)) -> alookup (camel nm) fs1 = alookup (camel nm) fs0.
Proof. exact no_case_kept. Qed.
Print Assumptions C18_unmatched_tag_is_empty.

(** What remains: a union whose default is [fail] does reject them.  Missing from the
    full statement: unions without a default. *)
Theorem C18_default_fail_partial : forall camel os fs r p, package camel os fs r p ->
  forall s fs0 data args, validCall camel fs r s fs0 data args -> ptrFiles fs = true -> forall fs1 rest, parses camel p s fs0 data args fs1 rest ->
  forall u tag len cs x c0, present camel r (contextsOf s args) fs1 (members_of s) (MUnion u tag len cs) ->
  refers camel (contextsOf s args) fs1 tag x -> In c0 cs -> ucase_list c0 = None -> In MFail (ucase_members c0) ->
  exists c l, In c cs /\ ucase_list c = Some l /\ in_list (Constant r) l x.
Proof. exact default_fail. Qed.
Print Assumptions C18_default_fail_partial.

(** [struct strict { u8 t; union u[t] { 1: u8 x; default: fail; }; }] on the bytes 1, 5. *)
Definition strict : struct := mkStruct "strict" [] (Some [u8 "t"; MUnion "u" (local "t") None [UCase (is 1) [u8 "x"]; UCase None [MFail]]]).
Definition strictFiles := one [strict].
Lemma strict_package : package camelX osX strictFiles (theRes strictFiles) (theProg strictFiles).
Proof. apply package_of. vm_compute. reflexivity. Qed.
Example C18_default_fail_case : exists fs0 fs1, validCall camelX strictFiles (theRes strictFiles) strict fs0 [1; 5] [] /\ ptrFiles strictFiles = true /\
  parses camelX (theProg strictFiles) strict fs0 [1; 5] [] fs1 [] /\ refers camelX (contextsOf strict []) fs1 (local "t") 1 /\
  present camelX (theRes strictFiles) (contextsOf strict []) fs1 (members_of strict) (MUnion "u" (local "t") None [UCase (is 1) [u8 "x"]; UCase None [MFail]]).
Proof.
  assert (VC : validCall camelX strictFiles (theRes strictFiles) strict (blank camelX (Constant (theRes strictFiles)) strict) [1; 5] []).
  { apply fresh_call; try (vm_compute; reflexivity); [now left|apply bytes_ok; vm_compute; reflexivity]. }
  exists (blank camelX (Constant (theRes strictFiles)) strict), [("T", VInt 1); ("X", VInt 5)]. split; [exact VC|]. split; [reflexivity|].
  split; [|split; [reflexivity|constructor; cbn; auto]].
  apply (parses_dec camelX osX strictFiles _ _ strict_package _ _ _ _ VC). exists 3%nat. reflexivity.
Qed.

Example C18_case : exists fs1, parses camelX (theProg pickFiles) pick [("T", VInt 0); ("X", VInt 7)] [2] [] fs1 [] /\
  alookup "X" fs1 = Some (VInt 7) /\ present camelX (theRes pickFiles) (contextsOf pick []) fs1 (members_of pick) (MUnion "u" (local "t") None [UCase (is 1) [u8 "x"]]).
Proof. eexists. split; [apply pick_parses; lia|]. split; [reflexivity|]. constructor. cbn. auto. Qed.

(** C19. A union [with length f] takes as many bytes as [f] says; its content is
    encoded as if nothing followed. *)
Theorem C19_length_exact : forall camel os fs r p, package camel os fs r p ->
  forall s fs0 data args, validCall camel fs r s fs0 data args -> ptrFiles fs = true -> forall fs1 rest, parses camel p s fs0 data args fs1 rest ->
  forall u tag f cs, present camel r (contextsOf s args) fs1 (members_of s) (MUnion u tag (Some (LRef f)) cs) ->
  exists pre w post x fsa fsb, data = pre ++ w ++ post /\ refers camel (contextsOf s args) fs1 f (blen w) /\
    refers camel (contextsOf s args) fs1 tag x /\ encCase camel (Constant r) (Struct r) True (contextsOf s args) (blen pre) cs x fsa w [] fsb.
Proof. exact length_exact. Qed.
Print Assumptions C19_length_exact.

(** A union [with length ..-N] leaves N bytes ... *)
Theorem C19_leftover_exact : forall camel os fs r p, package camel os fs r p ->
  forall s fs0 data args, validCall camel fs r s fs0 data args -> ptrFiles fs = true -> forall fs1 rest, parses camel p s fs0 data args fs1 rest ->
  forall ms1 u tag i cs ms2, members_of s = ms1 ++ MUnion u tag (Some (LLeftover i)) cs :: ms2 ->
  exists pre w post x fsa fsb, data = pre ++ w ++ post /\ int_value (Constant r) i = Some (blen post) /\
    encMs camel (Constant r) (Struct r) True (contextsOf s args) 0 ms1 fs0 pre (w ++ post) fsa /\
    refers camel (contextsOf s args) fs1 tag x /\ encCase camel (Constant r) (Struct r) True (contextsOf s args) (blen pre) cs x fsa w [] fsb.
Proof. exact leftover_exact. Qed.
Print Assumptions C19_leftover_exact.

(** ... and so does an array [..-N]. *)
Theorem C19_leftover_array_exact : forall camel os fs r p, package camel os fs r p ->
  forall s fs0 data args, validCall camel fs r s fs0 data args -> ptrFiles fs = true -> forall fs1 rest, parses camel p s fs0 data args fs1 rest ->
  forall ms1 nm b i ms2, members_of s = ms1 ++ MField nm (TVar b (Some (LLeftover i))) :: ms2 ->
  exists pre w post vs fsa, data = pre ++ w ++ post /\ int_value (Constant r) i = Some (blen post) /\
    encMs camel (Constant r) (Struct r) True (contextsOf s args) 0 ms1 fs0 pre (w ++ post) fsa /\
    alookup (camel nm) fs1 = Some (VList vs) /\ encAll camel (Constant r) (Struct r) True (contextsOf s args) (blen pre) fsa b vs w.
Proof. exact leftover_array_exact. Qed.
Print Assumptions C19_leftover_array_exact.

(** Fewer bytes than announced is an error ... *)
Theorem C19_too_short_is_error : forall camel os fs r p, package camel os fs r p ->
  forall s fs0 data args, validCall camel fs r s fs0 data args -> ptrFiles fs = true -> roomyFiles fs r -> blen data <= maxData ->
  forall (lenient : Prop) cenv pos fv c u tag f cs k,
  visits camel (Constant r) (Struct r) lenient (contextsOf s args) s fs0 data cenv pos (AtMember (MUnion u tag (Some (LRef f)) cs)) fv c ->
  refers camel cenv fv f k -> blen c < k < 2 ^ 63 -> fails camel p s fs0 data args "data too short".
Proof. intros camel os fs r p PK s fs0 data args VC PT SO L lenient cenv pos fv c u tag f cs k V R K. exact (fault_error camel os fs r p PK s fs0 data args VC PT SO L lenient cenv pos _ fv c _ V (F_union_len _ _ _ _ _ _ u tag f cs k fv c R K)). Qed.
Print Assumptions C19_too_short_is_error.

(** ... and so are unused bytes in the extent, here with a length field ... *)
Theorem C19_unused_bytes_is_error : forall camel os fs r p, package camel os fs r p ->
  forall s fs0 data args, validCall camel fs r s fs0 data args -> ptrFiles fs = true -> roomyFiles fs r -> blen data <= maxData ->
  forall (lenient : Prop) cenv pos fv fv' w c more u tag f cs x,
  visits camel (Constant r) (Struct r) lenient (contextsOf s args) s fs0 data cenv pos (AtMember (MUnion u tag (Some (LRef f)) cs)) fv ((w ++ c) ++ more) ->
  refers camel cenv fv tag x -> refers camel cenv fv f (blen (w ++ c)) ->
  encCase camel (Constant r) (Struct r) lenient cenv pos cs x fv w c fv' -> c <> [] -> fails camel p s fs0 data args "trailing data disallowed".
Proof. intros camel os fs r p PK s fs0 data args VC PT SO L lenient cenv pos fv fv' w c more u tag f cs x V R RL EC N. exact (fault_error camel os fs r p PK s fs0 data args VC PT SO L lenient cenv pos _ fv _ _ V (F_trailing_len _ _ _ _ _ _ u tag f cs x fv w c more fv' R RL EC N)). Qed.
Print Assumptions C19_unused_bytes_is_error.

(** ... and here with [..-N]. *)
Theorem C19_unused_bytes_leftover_is_error : forall camel os fs r p, package camel os fs r p ->
  forall s fs0 data args, validCall camel fs r s fs0 data args -> ptrFiles fs = true -> roomyFiles fs r -> blen data <= maxData ->
  forall (lenient : Prop) cenv pos fv fv' w c more u tag i cs x,
  visits camel (Constant r) (Struct r) lenient (contextsOf s args) s fs0 data cenv pos (AtMember (MUnion u tag (Some (LLeftover i)) cs)) fv ((w ++ c) ++ more) ->
  refers camel cenv fv tag x -> int_value (Constant r) i = Some (blen more) ->
  encCase camel (Constant r) (Struct r) lenient cenv pos cs x fv w c fv' -> c <> [] -> fails camel p s fs0 data args "trailing data disallowed".
Proof. intros camel os fs r p PK s fs0 data args VC PT SO L lenient cenv pos fv fv' w c more u tag i cs x V R RL EC N. exact (fault_error camel os fs r p PK s fs0 data args VC PT SO L lenient cenv pos _ fv _ _ V (F_trailing_allbut _ _ _ _ _ _ u tag i cs x fv w c more fv' R RL EC N)). Qed.
Print Assumptions C19_unused_bytes_leftover_is_error.

Example C19_case : present camelX demoR (contextsOf msg [optsV 2]) msgFields (members_of msg) body /\
  members_of tail = [u8 "kind"] ++ MField "body" (TVar (TInt 8 None) (Some (LLeftover (ILit 1)))) :: [u8 "last"; MEOS] /\
  parses camelX demoP tail (blank camelX (Constant demoR) tail) [1; 2; 3; 4] [] [("Kind", VInt 1); ("Body", VList [VInt 2; VInt 3]); ("Last", VInt 4)] [].
Proof.
  split; [constructor; cbn; tauto|]. split; [reflexivity|].
  apply (parses_dec camelX osX demo demoR demoP demo_package _ _ _ _ (tail_call [1; 2; 3; 4] ltac:(apply bytes_ok; vm_compute; reflexivity))).
  exists 4%nat. vm_compute. reflexivity.
Qed.

(** C20. *)
Theorem C20_eos : forall camel os fs r p, package camel os fs r p ->
  forall s fs0 data args, validCall camel fs r s fs0 data args -> ptrFiles fs = true -> forall fs1 rest, parses camel p s fs0 data args fs1 rest ->
  forall ms1 ms2, members_of s = ms1 ++ MEOS :: ms2 -> rest = [].
Proof. exact eos_end. Qed.
Print Assumptions C20_eos.

Theorem C20_trailing_is_error : forall camel os fs r p, package camel os fs r p ->
  forall s fs0 data args, validCall camel fs r s fs0 data args -> ptrFiles fs = true -> roomyFiles fs r -> blen data <= maxData ->
  forall (lenient : Prop) cenv pos f c,
  visits camel (Constant r) (Struct r) lenient (contextsOf s args) s fs0 data cenv pos (AtMember MEOS) f c -> c <> [] ->
  fails camel p s fs0 data args "trailing data disallowed".
Proof. intros camel os fs r p PK s fs0 data args VC PT SO L lenient cenv pos f c V N. exact (fault_error camel os fs r p PK s fs0 data args VC PT SO L lenient cenv pos _ f c _ V (F_eos _ _ _ _ _ _ f c N)). Qed.
Print Assumptions C20_trailing_is_error.

Example C20_case : members_of tail = [u8 "kind"; MField "body" (TVar (TInt 8 None) (Some (LLeftover (ILit 1)))); u8 "last"] ++ MEOS :: [] /\
  (exists fs1, parses camelX demoP tail (blank camelX (Constant demoR) tail) [1; 2; 3; 4] [] fs1 []) /\
  visits camelX (Constant demoR) (Struct demoR) True [] (mkStruct "one" [] (Some [MEOS])) [] [5] [] 0 (AtMember MEOS) [] [5].
Proof.
  split; [reflexivity|]. split.
  - eexists. apply (parses_dec camelX osX demo demoR demoP demo_package _ _ _ _ (tail_call [1; 2; 3; 4] ltac:(apply bytes_ok; vm_compute; reflexivity))).
    exists 4%nat. vm_compute. reflexivity.
  - exact (V_member camelX _ _ _ [] (mkStruct "one" [] (Some [MEOS])) [] [5] _ 0 [] MEOS [] [] [] [5] _ (V_start _ _ _ _ _ (mkStruct "one" [] (Some [MEOS])) _ _) (EncMs_nil _ _ _ _ _ _ _ _)).
Qed.

(** C21. Neither the struct nor one it contains outside length constraints looks at
    the end of the data. *)
Theorem C21_following_bytes_ignored : forall camel os fs r p, package camel os fs r p ->
  forall s fs0 data args, validCall camel fs r s fs0 data args -> 
  forall fs1 rest, ptrFiles fs = true -> parses camel p s fs0 data args fs1 rest -> forall more, goBytes (data ++ more) -> selfDelimiting r s ->
  parses camel p s fs0 (data ++ more) args fs1 (rest ++ more).
Proof. exact longer. Qed.
Print Assumptions C21_following_bytes_ignored.

Lemma msg_selfDelimiting : selfDelimiting demoR msg.
Proof.
  assert (R : forall s', reaches demoR exposed msg s' -> s' = msg \/ s' = point).
  { intros s' R. induction R as [|s1 m nm s2 R IH I J E]; auto. right. destruct IH as [-> | ->].
    - cbn in I. destruct I as [<-|[<-|[<-|[<-|[<-|[<-|[<-|[<-|[]]]]]]]]]; cbn in J; try tauto.
      destruct J as [<-|[]]. vm_compute in E. now injection E as <-.
    - cbn in I. destruct I as [<-|[<-|[]]]; cbn in J; tauto. }
  intros s' m RE I. apply R in RE as [-> | ->]; cbn in I.
  - destruct I as [<-|[<-|[<-|[<-|[<-|[<-|[<-|[<-|[]]]]]]]]]; reflexivity.
  - destruct I as [<-|[<-|[]]]; reflexivity.
Qed.
Example C21_case : selfDelimiting demoR msg /\ goBytes ((msgBytes ++ msgRest) ++ [1; 2; 3]).
Proof. split; [exact msg_selfDelimiting|]. apply bytes_ok; vm_compute; reflexivity. Qed.

(** C22. Equal results come from equal bytes. *)
Theorem C22_lossless : forall camel os fs r p, package camel os fs r p -> ptrFiles fs = true ->
  forall s args fsa da fsb db, validCall camel fs r s fsa da args -> validCall camel fs r s fsb db args -> ignoreFree r s ->
  forall fs1 ra rb, parses camel p s fsa da args fs1 ra -> parses camel p s fsb db args fs1 rb ->
  exists w, da = w ++ ra /\ db = w ++ rb.
Proof. exact lossless. Qed.
Print Assumptions C22_lossless.

Lemma point_ignoreFree : ignoreFree demoR point.
Proof.
  assert (R : forall s', reaches demoR mentions point s' -> s' = point).
  { intros s' R. induction R as [|s1 m nm s2 R IH I J E]; auto. subst s1. cbn in I. destruct I as [<-|[<-|[]]]; cbn in J; tauto. }
  intros s' m RE I. apply R in RE as ->. cbn in I. destruct I as [<-|[<-|[]]]; reflexivity.
Qed.
Example C22_case : ignoreFree demoR point /\
  parses camelX demoP point (blank camelX (Constant demoR) point) [1; 2; 9] [] [("X", VInt 1); ("Y", VInt 2)] [9] /\
  parses camelX demoP point (blank camelX (Constant demoR) point) [1; 2] [] [("X", VInt 1); ("Y", VInt 2)] [].
Proof.
  split; [exact point_ignoreFree|].
  split; (eapply (parses_dec camelX osX demo demoR demoP demo_package); [apply point_call; apply bytes_ok; vm_compute; reflexivity|]; exists 3%nat; vm_compute; reflexivity).
Qed.

(** C23. The bytes up to the first NUL; anywhere in the struct ... *)
Theorem C23_nulterm : forall camel os fs r p, package camel os fs r p ->
  forall s fs0 data args, validCall camel fs r s fs0 data args -> ptrFiles fs = true -> forall fs1 rest, parses camel p s fs0 data args fs1 rest ->
  forall nm, present camel r (contextsOf s args) fs1 (members_of s) (MField nm TNul) ->
  exists pre str post, data = pre ++ str ++ 0 :: post /\ ~ In 0 str /\ alookup (camel nm) fs1 = Some (VStr str).
Proof. exact nulterm. Qed.
Print Assumptions C23_nulterm.

(** ... and for a member of the struct itself: the members before it are just before the string, and those after it start after the NUL. *)
Theorem C23_nul_consumed : forall camel os fs r p, package camel os fs r p ->
  forall s fs0 data args, validCall camel fs r s fs0 data args -> ptrFiles fs = true -> forall fs1 rest, parses camel p s fs0 data args fs1 rest ->
  forall ms1 nm ms2, members_of s = ms1 ++ MField nm TNul :: ms2 ->
  exists pre str post fsa fsb, data = pre ++ str ++ 0 :: post /\ ~ In 0 str /\ alookup (camel nm) fs1 = Some (VStr str) /\
    encMs camel (Constant r) (Struct r) True (contextsOf s args) 0 ms1 fs0 pre (str ++ 0 :: post) fsa /\
    exists w2, post = w2 ++ rest /\ encMs camel (Constant r) (Struct r) True (contextsOf s args) (blen pre + (blen str + 1)) ms2 fsb w2 rest fs1.
Proof. exact nulterm_direct. Qed.
Print Assumptions C23_nul_consumed.

Theorem C23_no_nul_is_error : forall camel os fs r p, package camel os fs r p ->
  forall s fs0 data args, validCall camel fs r s fs0 data args -> ptrFiles fs = true -> roomyFiles fs r -> blen data <= maxData ->
  forall (lenient : Prop) cenv pos f c,
  visits camel (Constant r) (Struct r) lenient (contextsOf s args) s fs0 data cenv pos (AtType TNul) f c -> ~ In 0 c ->
  fails camel p s fs0 data args "could not parse nul-term string".
Proof. intros camel os fs r p PK s fs0 data args VC PT SO L lenient cenv pos f c V N. exact (fault_error camel os fs r p PK s fs0 data args VC PT SO L lenient cenv pos _ f c _ V (F_nul _ _ _ _ _ _ f c N)). Qed.
Print Assumptions C23_no_nul_is_error.

(** A message with a name, and what stands where the name should end. *)
Example C23_case : (exists fs1, parses camelX demoP msg (blank camelX (Constant demoR) msg) [2; 3; 72; 105; 0; 0; 0; 8; 1; 0] [optsV 0] fs1 [] /\
    present camelX demoR (contextsOf msg [optsV 0]) fs1 (members_of msg) (MField "name" TNul) /\ alookup "Name" fs1 = Some (VStr [72; 105])) /\
  fails camelX demoP msg (blank camelX (Constant demoR) msg) [2; 2; 72; 105; 0; 0; 8; 1; 0] [optsV 0] "could not parse nul-term string".
Proof.
  split.
  - exists [("Tag", VInt 2); ("Len", VInt 3); ("Pos", VInt 2); ("P", VNil); ("Q", VNil); ("Name", VStr [72; 105]); ("Words", VNil); ("Count", VInt 0);
      ("Pts", VList []); ("Pair", VList [VInt 8; VInt 256]); ("More", VList [])].
    split; [|split; [|reflexivity]].
    + eapply (parses_dec camelX osX demo demoR demoP demo_package); [apply (msg_call _ 0); [apply bytes_ok; vm_compute; reflexivity|lia]|].
      exists 6%nat. vm_compute. reflexivity.
    + eapply P_case with (x := 2) (c := UCase (is 2) [MField "name" TNul]); [right; right; right; left; reflexivity|reflexivity| |constructor; now left].
      left. exists (firstn 1 bodyCases), (skipn 2 bodyCases). split; [reflexivity|]. split.
      * eexists. split; [reflexivity|]. exists (mkRange (ILit 2) None), 2, 2. split; [now left|]. split; [reflexivity|lia].
      * repeat constructor; intros (l & E & g & a & b & I & E' & L'); injection E as <-; destruct I as [<-|[]]; injection E' as <- <-; lia.
  - eapply (fails_dec camelX osX demo demoR demoP demo_package); [apply (msg_call _ 0); [apply bytes_ok; vm_compute; reflexivity|lia]|].
    exists 6%nat. vm_compute. reflexivity.
Qed.

(** C24. A position field holds the number of bytes taken by the members before it. *)
Theorem C24_position : forall camel os fs r p, package camel os fs r p ->
  forall s fs0 data args, validCall camel fs r s fs0 data args -> ptrFiles fs = true -> forall fs1 rest, parses camel p s fs0 data args fs1 rest ->
  forall ms1 nm ms2, members_of s = ms1 ++ MField nm TPtr :: ms2 ->
  exists w1 post fsa, data = w1 ++ post /\ encMs camel (Constant r) (Struct r) True (contextsOf s args) 0 ms1 fs0 w1 post fsa /\ alookup (camel nm) fs1 = Some (VInt (blen w1)).
Proof. exact position. Qed.
Print Assumptions C24_position.

Example C24_case : members_of msg = [u8 "tag"; u8 "len"] ++ MField "pos" TPtr :: skipn 3 (members_of msg) /\ alookup "Pos" msgFields = Some (VInt 2).
Proof. split; reflexivity. Qed.

(** C25. [encN]: the bytes of the elements one after the other.  Fixed size ... *)
Theorem C25_fixed : forall camel os fs r p, package camel os fs r p ->
  forall s fs0 data args, validCall camel fs r s fs0 data args -> ptrFiles fs = true -> forall fs1 rest, parses camel p s fs0 data args fs1 rest ->
  forall nm b i, present camel r (contextsOf s args) fs1 (members_of s) (MField nm (TFixed b i)) ->
  exists pre w post tl fs' vs, data = pre ++ w ++ post /\ alookup (camel nm) fs1 = Some (VList vs) /\
    int_value (Constant r) i = Some (blen vs) /\ encN camel (Constant r) (Struct r) True (contextsOf s args) (blen pre) fs' b vs w tl.
Proof. exact fixed_length. Qed.
Print Assumptions C25_fixed.

(** ... size in a field ... *)
Theorem C25_counted : forall camel os fs r p, package camel os fs r p ->
  forall s fs0 data args, validCall camel fs r s fs0 data args -> ptrFiles fs = true -> forall fs1 rest, parses camel p s fs0 data args fs1 rest ->
  forall nm b f, present camel r (contextsOf s args) fs1 (members_of s) (MField nm (TVar b (Some (LRef f)))) ->
  exists pre w post tl fs' vs, data = pre ++ w ++ post /\ alookup (camel nm) fs1 = Some (VList vs) /\
    refers camel (contextsOf s args) fs1 f (blen vs) /\ encN camel (Constant r) (Struct r) True (contextsOf s args) (blen pre) fs' b vs w tl.
Proof. exact counted_length. Qed.
Print Assumptions C25_counted.

(** ... up to the end of the data. *)
Theorem C25_remainder : forall camel os fs r p, package camel os fs r p ->
  forall s fs0 data args, validCall camel fs r s fs0 data args -> ptrFiles fs = true -> forall fs1 rest, parses camel p s fs0 data args fs1 rest ->
  forall ms1 nm b ms2, members_of s = ms1 ++ MField nm (TVar b None) :: ms2 ->
  exists w1 w vs fsa, data = w1 ++ w /\ rest = [] /\ alookup (camel nm) fs1 = Some (VList vs) /\
    encMs camel (Constant r) (Struct r) True (contextsOf s args) 0 ms1 fs0 w1 w fsa /\ encAll camel (Constant r) (Struct r) True (contextsOf s args) (blen w1) fsa b vs w.
Proof. exact remainder_length. Qed.
Print Assumptions C25_remainder.

Example C25_case : present camelX demoR (contextsOf msg [optsV 2]) msgFields (members_of msg) (MField "pair" (TFixed (TInt 16 None) (ILit 2))) /\
  present camelX demoR (contextsOf msg [optsV 2]) msgFields (members_of msg) (MField "more" (TVar (TInt 8 None) (Some (LRef (mkRef "opts" "extra"))))) /\
  members_of listS = [] ++ MField "xs" (TVar (TStruct "empty") None) :: [].
Proof. split; [constructor; cbn; tauto|]. split; [constructor; cbn; tauto|reflexivity]. Qed.

(** C26. A struct-valued field holds what the struct's own Parse gives on a fresh value
    with the like-named contexts ... *)
Theorem C26_nested : forall camel os fs r p, package camel os fs r p ->
  forall s fs0 data args, validCall camel fs r s fs0 data args -> ptrFiles fs = true -> forall fs1 rest, parses camel p s fs0 data args fs1 rest ->
  roomyFiles fs r -> blen data <= maxData ->
  forall nm sn, present camel r (contextsOf s args) fs1 (members_of s) (MField nm (TStruct sn)) ->
  exists pre c more rest' s' args' fs', data = pre ++ c ++ more /\ Struct r sn = Some s' /\ passed s' (contextsOf s args) args' /\
    parses camel p s' (blank camel (Constant r) s') c args' fs' rest' /\ alookup (camel nm) fs1 = Some (VStruct (camel sn) fs').
Proof. exact nested. Qed.
Print Assumptions C26_nested.

(** ... so do elements of arrays of structs. *)
Theorem C26_nested_elements : forall camel os fs r p, package camel os fs r p ->
  forall s fs0 data args, validCall camel fs r s fs0 data args -> ptrFiles fs = true -> forall fs1 rest, parses camel p s fs0 data args fs1 rest ->
  roomyFiles fs r -> blen data <= maxData ->
  forall nm t sn, element t = Some (TStruct sn) -> present camel r (contextsOf s args) fs1 (members_of s) (MField nm t) ->
  exists vs, alookup (camel nm) fs1 = Some (VList vs) /\
    forall v, In v vs -> exists pre c more rest' s' args' fs', data = pre ++ c ++ more /\ Struct r sn = Some s' /\ passed s' (contextsOf s args) args' /\
      parses camel p s' (blank camel (Constant r) s') c args' fs' rest' /\ v = VStruct (camel sn) fs'.
Proof. exact nested_elements. Qed.
Print Assumptions C26_nested_elements.

(** The nested Parse gets all the bytes ahead, and the members after it get what it returned. *)
Theorem C26_continues : forall camel os fs r p, package camel os fs r p ->
  forall s fs0 data args, validCall camel fs r s fs0 data args -> ptrFiles fs = true -> forall fs1 rest, parses camel p s fs0 data args fs1 rest ->
  roomyFiles fs r -> blen data <= maxData ->
  forall ms1 nm sn ms2, members_of s = ms1 ++ MField nm (TStruct sn) :: ms2 ->
  exists pre c fsa fsb w2 rest' s' args' fs', data = pre ++ c /\ encMs camel (Constant r) (Struct r) True (contextsOf s args) 0 ms1 fs0 pre c fsa /\
    Struct r sn = Some s' /\ passed s' (contextsOf s args) args' /\
    parses camel p s' (blank camel (Constant r) s') c args' fs' rest' /\ alookup (camel nm) fs1 = Some (VStruct (camel sn) fs') /\
    rest' = w2 ++ rest /\ encMs camel (Constant r) (Struct r) True (contextsOf s args) (blen data - blen rest') ms2 fsb w2 rest fs1.
Proof. exact nested_direct. Qed.
Print Assumptions C26_continues.

(** The error of a nested Parse is the error of the whole. *)
Theorem C26_nested_error : forall camel os fs r p, package camel os fs r p -> ptrFiles fs = true -> roomyFiles fs r ->
  forall s fs0 data args, validCall camel fs r s fs0 data args -> blen data <= maxData ->
  forall (lenient : Prop) cenv pos sn f c, visits camel (Constant r) (Struct r) lenient (contextsOf s args) s fs0 data cenv pos (AtType (TStruct sn)) f c ->
  forall s' args', Struct r sn = Some s' -> passed s' cenv args' -> validCall camel fs r s' (blank camel (Constant r) s') c args' ->
  forall e, fails camel p s' (blank camel (Constant r) s') c args' e -> fails camel p s fs0 data args e.
Proof. exact nested_fails. Qed.
Print Assumptions C26_nested_error.

Example C26_case : present camelX demoR (contextsOf msg [optsV 2]) msgFields (members_of msg) (MField "pts" (TVar (TStruct "point") (Some (LRef (local "count"))))) /\
  element (TVar (TStruct "point") (Some (LRef (local "count")))) = Some (TStruct "point") /\
  present camelX demoR (contextsOf msg [optsV 2]) msgFields (members_of msg) (MField "p" (TStruct "point")).
Proof.
  split; [constructor; cbn; tauto|]. split; [reflexivity|].
  eapply P_case with (x := 1) (c := UCase (is 1) [MField "p" (TStruct "point"); MField "q" (TStruct "point")]); [right; right; right; left; reflexivity|reflexivity| |constructor; now left].
  left. exists [], (skipn 1 bodyCases). split; [reflexivity|]. split; [|constructor].
  eexists. split; [reflexivity|]. exists (mkRange (ILit 1) None), 1, 1. split; [now left|]. split; [reflexivity|lia].
Qed.

(** C27. The result is determined ... *)
Theorem C27_function_of_data : forall camel os fs r p, package camel os fs r p ->
  forall s fs0 data args, validCall camel fs r s fs0 data args -> 
  forall fs1 rest fs2 rest', parses camel p s fs0 data args fs1 rest -> parses camel p s fs0 data args fs2 rest' -> fs1 = fs2 /\ rest = rest'.
Proof. exact parses_fun. Qed.
Print Assumptions C27_function_of_data.

(** ... and what the receiver held before plays no role for the returned slice or for
    any field that is parsed; fields of cases not taken keep their old values. *)
Theorem C27_receiver_fields : forall camel os fs r p, package camel os fs r p -> forall s data args fa fb,
  validCall camel fs r s fa data args -> validCall camel fs r s fb data args -> ptrFiles fs = true ->
  forall fa1 rest, parses camel p s fa data args fa1 rest ->
  exists fb1, parses camel p s fb data args fb1 rest /\
    forall nm t, In (nm, t) (flat_map allFields (members_of s)) ->
      present camel r (contextsOf s args) fa1 (members_of s) (MField nm t) /\ present camel r (contextsOf s args) fb1 (members_of s) (MField nm t) /\
        alookup (camel nm) fa1 = alookup (camel nm) fb1 \/
      ~ present camel r (contextsOf s args) fa1 (members_of s) (MField nm t) /\ ~ present camel r (contextsOf s args) fb1 (members_of s) (MField nm t) /\
        alookup (camel nm) fa1 = alookup (camel nm) fa /\ alookup (camel nm) fb1 = alookup (camel nm) fb.
Proof. exact receivers. Qed.
Print Assumptions C27_receiver_fields.

(** Nor for errors ... *)
Theorem C27_receiver_error : forall camel os fs r p, package camel os fs r p -> forall s data args fa fb,
  validCall camel fs r s fa data args -> validCall camel fs r s fb data args ->
  forall e, fails camel p s fa data args e -> fails camel p s fb data args e.
Proof. exact receivers_error. Qed.
Print Assumptions C27_receiver_error.

(** ... and panics. *)
Theorem C27_receiver_panic : forall camel os fs r p, package camel os fs r p -> forall s data args fa fb,
  validCall camel fs r s fa data args -> validCall camel fs r s fb data args ->
  forall m, panics camel p s fa data args m -> panics camel p s fb data args m.
Proof. exact receivers_panic. Qed.
Print Assumptions C27_receiver_panic.

(** ParseX is Parse on a fresh value. *)
Theorem C27_new : forall camel os fs r p, package camel os fs r p -> forall s data args, defines fs s -> ctxValues camel r s args -> goBytes data ->
  forall n, let run := runParse camel p n s (blank camel (Constant r) s) data args in
  (forall v rest, run = (v, SRet (VBytes rest) VNil) -> runNew camel p n s data args = SRet v VNil) /\
  (forall e, snd run = SRet VNil (VErr e) -> runNew camel p n s data args = SRet VNil (VErr e)) /\
  (forall m, snd run = SPanic m -> runNew camel p n s data args = SPanic m) /\
  (snd run = SFuel -> runNew camel p n s data args = SFuel).
Proof. exact new_same. Qed.
Print Assumptions C27_new.

(** C48 is false: a reused receiver keeps old union fields. *)
Theorem C48_reused_receiver_refuted : exists camel os fs r p s fa fb fa1 fb1 data args rest, package camel os fs r p /\
  validCall camel fs r s fa data args /\ validCall camel fs r s fb data args /\
  parses camel p s fa data args fa1 rest /\ parses camel p s fb data args fb1 rest /\ fa1 <> fb1.
Proof. 
  exists camelX, osX, pickFiles, (theRes pickFiles), (theProg pickFiles), pick, [("T", VInt 0); ("X", VInt 0)], [("T", VInt 0); ("X", VInt 7)],
    [("T", VInt 2); ("X", VInt 0)], [("T", VInt 2); ("X", VInt 7)], [2], [], [].
  split; [exact pick_package|]. split; [apply pick_call; lia|]. split; [apply pick_call; lia|].
  split; [apply pick_parses; lia|]. split; [apply pick_parses; lia|discriminate].
 Qed.
Print Assumptions C48_reused_receiver_refuted.

(** What remains: if every field was parsed, the outcome does not depend on the
    receiver.  Missing from the full statement: fields of cases not taken. *)
Theorem C48_reused_receiver_partial : forall camel os fs r p, package camel os fs r p -> forall s data args fa fb,
  validCall camel fs r s fa data args -> validCall camel fs r s fb data args -> ptrFiles fs = true ->
  forall fa1 rest, parses camel p s fa data args fa1 rest ->
  (forall nm t, In (nm, t) (flat_map allFields (members_of s)) -> present camel r (contextsOf s args) fa1 (members_of s) (MField nm t)) ->
  parses camel p s fb data args fa1 rest.
Proof. exact fresh_receiver. Qed.
Print Assumptions C48_reused_receiver_partial.

(** In particular if no field is in a union. *)
Theorem C48_no_union_fields_partial : forall camel os fs r p, package camel os fs r p -> forall s data args fa fb,
  validCall camel fs r s fa data args -> validCall camel fs r s fb data args -> ptrFiles fs = true ->
  (forall nm t, In (nm, t) (flat_map allFields (members_of s)) -> In (MField nm t) (members_of s)) ->
  forall fa1 rest, parses camel p s fa data args fa1 rest -> parses camel p s fb data args fa1 rest.
Proof. exact fresh_receiver_flat. Qed.
Print Assumptions C48_no_union_fields_partial.

Example C48_case : exists fa fb, fa <> fb /\ validCall camelX demo demoR point fa [7; 2; 9] [] /\ validCall camelX demo demoR point fb [7; 2; 9] [] /\
  ptrFiles demo = true /\ (forall nm t, In (nm, t) (flat_map allFields (members_of point)) -> In (MField nm t) (members_of point)) /\
  parses camelX demoP point fa [7; 2; 9] [] [("X", VInt 7); ("Y", VInt 2)] [9].
Proof.
  assert (VC : forall x, 0 <= x < 256 -> validCall camelX demo demoR point [("X", VInt x); ("Y", VInt 0)] [7; 2; 9] []).
  { intros x X. constructor; [exact demo_point|constructor| |apply bytes_ok; vm_compute; reflexivity].
    repeat (constructor; cbn; auto). + exists x. auto. + exists 0. split; auto. lia. }
  exists [("X", VInt 0); ("Y", VInt 0)], [("X", VInt 77); ("Y", VInt 0)]. split; [discriminate|].
  split; [apply VC; lia|]. split; [apply VC; lia|]. split; [exact demo_ptr|]. split.
  - intros nm t I. cbn in I. destruct I as [E|[E|[]]]; injection E as <- <-; cbn; auto.
  - apply (parses_dec camelX osX demo demoR demoP demo_package _ _ _ _ (VC 0 ltac:(lia))). exists 3%nat. reflexivity.
Qed.

Example C27_case : validCall camelX pickFiles (theRes pickFiles) pick [("T", VInt 0); ("X", VInt 0)] [2] [] /\
  validCall camelX pickFiles (theRes pickFiles) pick [("T", VInt 0); ("X", VInt 7)] [2] [] /\ ptrFiles pickFiles = true.
Proof. split; [apply pick_call; lia|]. split; [apply pick_call; lia|reflexivity]. Qed.
