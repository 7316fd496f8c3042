(** Property C101: a constraint is a filter, and so is the end of the data. *)
From Coq Require Import ZArith String List Bool Lia ZifyBool ZifyNat.
From Verif Require Import Base Ast IntervalsModel InspectModel InspectSpec InspectProofs GoLang GenModel GenDecode GenCheck GenSim GenSimBody GenSimProg GenMono WireSpec WireProofs WireComplete WireFacts GenTerm FwdProofs
  PackageSpec PackageProofs PackageFacts PackageMore GenExamples GenWitness IndepSpec UnrollProofs P_Unroll PickProofs.
Import ListNotations.
Open Scope string_scope.
Open Scope list_scope.
Open Scope Z_scope.

Section Filter.
Variable camel : string -> string.
Variable os : nat -> orders.
Variable fs : list file.
Variable r : resolver.
Variable p : program.
Hypothesis PK : package camel os fs r p.
Variables s s' : struct.
Hypothesis DS : defines fs s.
Hypothesis DS' : defines fs s'.
Hypothesis EC : scontexts s' = scontexts s.
Variable data : bytes.
Variable args : list value.
Hypothesis VA : ctxValues camel r s args.
Hypothesis VD : goBytes data.
Notation cv := (Constant r).
Notation new := (blank camel cv s).
Notation new' := (blank camel cv s').
Notation dec n := (decStruct camel r n s new (contextsOf s args) data).
Notation dec' n := (decStruct camel r n s' new' (contextsOf s' args) data).
Variable msg : string.
Variable good : amap value -> bytes -> Prop.
Hypothesis STEP : forall n, (forall a c, dec' n = Ok (a, c) -> good a c -> dec n = Ok (a, c)) /\ (forall a c, dec' n = Ok (a, c) -> ~ good a c -> dec n = Err msg) /\
  (forall a c, dec n = Ok (a, c) -> dec' n = Ok (a, c) /\ good a c) /\
  (dec n = dec' n \/ dec n = Err msg).
Lemma fi_call : validCall camel fs r s new data args.
Proof. constructor; auto. eapply blank_goStruct; eauto. now apply (defines_in fs). Qed.
Lemma fi_call' : validCall camel fs r s' new' data args.
Proof. constructor; auto. - unfold ctxValues in *. now rewrite EC. - eapply blank_goStruct; eauto. now apply (defines_in fs). Qed.
Theorem filtered :
  (forall fs1 rest, parses camel p s new data args fs1 rest <-> parses camel p s' new' data args fs1 rest /\ good fs1 rest) /\
  (forall fs1 rest, parses camel p s' new' data args fs1 rest -> ~ good fs1 rest -> fails camel p s new data args msg) /\
  (forall e, e <> msg -> fails camel p s new data args e -> fails camel p s' new' data args e) /\
  (forall e, fails camel p s' new' data args e -> fails camel p s new data args e \/ fails camel p s new data args msg) /\
  (forall m, panics camel p s new data args m -> panics camel p s' new' data args m) /\
  (forall m, panics camel p s' new' data args m -> panics camel p s new data args m \/ fails camel p s new data args msg) /\
  (neverEnds camel p s new data args -> neverEnds camel p s' new' data args) /\
  (neverEnds camel p s' new' data args -> ~ fails camel p s new data args msg -> neverEnds camel p s new data args).
Proof.
  pose proof fi_call as VC. pose proof fi_call' as VC'.
  split; [|split; [|split; [|split; [|split; [|split; [|split]]]]]].
  - intros a c. rewrite (parses_dec camel os fs r p PK _ _ _ _ VC), (parses_dec camel os fs r p PK _ _ _ _ VC'). split.
    + intros [n H]. destruct (proj1 (proj2 (proj2 (STEP n))) a c H). eauto.
    + intros [[n H] G]. exists n. now apply (STEP n).
  - intros a c. rewrite (fails_dec camel os fs r p PK _ _ _ _ VC), (parses_dec camel os fs r p PK _ _ _ _ VC'). intros [n H] G. exists n. now apply (proj1 (proj2 (STEP n)) a c).
  - intros e NE. rewrite (fails_dec camel os fs r p PK _ _ _ _ VC), (fails_dec camel os fs r p PK _ _ _ _ VC'). intros [n H]. exists n. destruct (proj2 (proj2 (proj2 (STEP n)))) as [E|E]; congruence.
  - intros e. rewrite !(fails_dec camel os fs r p PK _ _ _ _ VC), (fails_dec camel os fs r p PK _ _ _ _ VC'). intros [n H]. destruct (proj2 (proj2 (proj2 (STEP n)))) as [E|E]; [left|right]; exists n; congruence.
  - intros e. rewrite (panics_dec camel os fs r p PK _ _ _ _ VC), (panics_dec camel os fs r p PK _ _ _ _ VC'). intros [n H]. exists n. destruct (proj2 (proj2 (proj2 (STEP n)))) as [E|E]; congruence.
  - intros e. rewrite (fails_dec camel os fs r p PK _ _ _ _ VC), (panics_dec camel os fs r p PK _ _ _ _ VC), (panics_dec camel os fs r p PK _ _ _ _ VC'). intros [n H]. destruct (proj2 (proj2 (proj2 (STEP n)))) as [E|E]; [left|right]; exists n; congruence.
  - intros NE n. apply (run_fuel camel os fs r p PK _ _ _ _ VC'). pose proof (proj1 (run_fuel camel os fs r p PK _ _ _ _ VC n) (NE n)) as N. destruct (proj2 (proj2 (proj2 (STEP n)))) as [E|E]; congruence.
  - intros NE NF n. apply (run_fuel camel os fs r p PK _ _ _ _ VC). pose proof (proj1 (run_fuel camel os fs r p PK _ _ _ _ VC' n) (NE n)) as N. destruct (proj2 (proj2 (proj2 (STEP n)))) as [E|E]; [congruence|].
    exfalso. apply NF. apply (fails_dec camel os fs r p PK _ _ _ _ VC). eauto.
Qed.
End Filter.

(** C101.  If a struct has an integer with a constraint where another has it without, then the parser
    of the first accepts the data that the other accepts with an integer that meets the constraint.
    It finds the same in all fields and leaves the same rest.  Other data of these it rejects for the
    constraint, and of what the other one rejects it accepts nothing: it fails in the same way, or for
    the constraint. *)
Theorem C101_constraint : forall camel os fs r p, package camel os fs r p ->
  forall s s' ms1 ms2 nm sz l, defines fs s -> defines fs s' -> scontexts s' = scontexts s ->
  members_of s = ms1 ++ MField nm (TInt sz (Some l)) :: ms2 -> members_of s' = ms1 ++ MField nm (TInt sz None) :: ms2 ->
  forall data args, ctxValues camel r s args -> goBytes data ->
  let new := blank camel (Constant r) s in let new' := blank camel (Constant r) s' in
  let good (a : amap value) (c : bytes) := exists x, alookup (camel nm) a = Some (VInt x) /\ in_list (Constant r) l x in
  let msg := "integer constraint violated" in
  (forall fs1 rest, parses camel p s new data args fs1 rest <-> parses camel p s' new' data args fs1 rest /\ good fs1 rest) /\
  (forall fs1 rest, parses camel p s' new' data args fs1 rest -> ~ good fs1 rest -> fails camel p s new data args msg) /\
  (forall e, e <> msg -> fails camel p s new data args e -> fails camel p s' new' data args e) /\
  (forall e, fails camel p s' new' data args e -> fails camel p s new data args e \/ fails camel p s new data args msg) /\
  (forall m, panics camel p s new data args m -> panics camel p s' new' data args m) /\
  (forall m, panics camel p s' new' data args m -> panics camel p s new data args m \/ fails camel p s new data args msg) /\
  (neverEnds camel p s new data args -> neverEnds camel p s' new' data args) /\
  (neverEnds camel p s' new' data args -> ~ fails camel p s new data args msg -> neverEnds camel p s new data args).
Proof.
  intros camel os fs r p PK s s' ms1 ms2 nm sz l DS DS' EC EM EM' data args VA VD new new' good msg.
  apply (filtered camel os fs r p PK s s' DS DS' EC data args VA VD msg good).
  assert (EB : new' = new) by (unfold new, new', blank; rewrite EM, EM', !flat_map_app, !map_app; reflexivity).
  fold new new'. rewrite EB. replace (contextsOf s' args) with (contextsOf s args) by (unfold contextsOf; now rewrite EC). set (cenv := contextsOf s args).
  assert (ND : NoDup (map (fun f : string * type => camel (fst f)) (flat_map allFields (members_of s)))) by (eapply struct_nodup; eauto; now apply (defines_in fs)).
  intros [|n]; [cbn [decStruct]; split; [discriminate|split; [discriminate|split; [discriminate|now left]]]|].
  cbn [decStruct]. rewrite EM, EM', !members_app. cbn [decMembers decMember decType decBase].
  destruct (decMembers camel r (decCall camel r n) n cenv (blen data) ms1 new data) as [[a c]|e|m|] eqn:H1; cbn [bind]; try (split; [discriminate|split; [discriminate|split; [discriminate|now left]]]).
  unfold decInt. destruct (blen c <? sz / 8); cbn [bind]; [split; [discriminate|split; [discriminate|split; [discriminate|now left]]]|].
  set (x := be (firstn (Z.to_nat (sz / 8)) c)). set (c1 := skipn (Z.to_nat (sz / 8)) c).
  assert (AX : forall b c2, decMembers camel r (decCall camel r n) n cenv (blen data) ms2 (assign (camel nm) (VInt x) a) c1 = Ok (b, c2) -> alookup (camel nm) b = Some (VInt x)).
  { intros b c2 H2. rewrite EM, flat_map_app, map_app in ND. cbn [flat_map allFields app map fst] in ND.
    rewrite (members_keep camel r (decCall camel r n) n cenv data _ _ _ _ _ H2).
    - rewrite alookup_assign, String.eqb_refl. rewrite (members_keep camel r (decCall camel r n) n cenv data _ _ _ _ _ H1).
      + unfold new, blank. rewrite (alookup_in _ (camel nm) (blankOf (Constant r) (TInt sz (Some l)))); [reflexivity|rewrite map_map; eapply struct_nodup; eauto; now apply (defines_in fs)|].
        apply in_map_iff. exists (nm, TInt sz (Some l)). split; auto. rewrite EM, flat_map_app. apply in_or_app. right. now left.
      + intros J. apply (NoDup_app_disj _ _ _ ND J). now left.
    - apply NoDup_app_r in ND. inversion ND; auto. }
  destruct (inList r x l) eqn:IL; cbn [bind].
  - assert (IG : in_list (Constant r) l x) by now apply inList_spec. split; [auto|]. split; [|split; [|now left]].
    + intros b c2 H2 NG. exfalso. apply NG. exists x. split; eauto.
    + intros b c2 H2. split; auto. exists x. split; eauto.
  - assert (IG : ~ in_list (Constant r) l x) by (intros I; apply inList_spec in I; congruence). split; [|split; [reflexivity|split; [discriminate|now right]]].
    intros b c2 H2 (y & Y & I). rewrite (AX b c2 H2) in Y. injection Y as <-. contradiction.
Qed.
Print Assumptions C101_constraint.

(** Likewise for [eos] at the end of a struct. *)
Theorem C101_eos : forall camel os fs r p, package camel os fs r p ->
  forall s s' ms, defines fs s -> defines fs s' -> scontexts s' = scontexts s ->
  members_of s = ms ++ [MEOS] -> members_of s' = ms ->
  forall data args, ctxValues camel r s args -> goBytes data ->
  let new := blank camel (Constant r) s in let new' := blank camel (Constant r) s' in
  let msg := "trailing data disallowed" in
  (forall fs1 rest, parses camel p s new data args fs1 rest <-> parses camel p s' new' data args fs1 rest /\ rest = []) /\
  (forall fs1 rest, parses camel p s' new' data args fs1 rest -> rest <> [] -> fails camel p s new data args msg) /\
  (forall e, e <> msg -> fails camel p s new data args e -> fails camel p s' new' data args e) /\
  (forall e, fails camel p s' new' data args e -> fails camel p s new data args e) /\
  (forall m, panics camel p s new data args m <-> panics camel p s' new' data args m) /\
  (neverEnds camel p s new data args <-> neverEnds camel p s' new' data args).
Proof.
  intros camel os fs r p PK s s' ms DS DS' EC EM EM' data args VA VD new new' msg.
  assert (EB : new' = new) by (unfold new, new', blank; rewrite EM, EM', flat_map_app; cbn [flat_map allFields app]; now rewrite app_nil_r).
  assert (ST : forall n, decStruct camel r n s new (contextsOf s args) data =
    match decStruct camel r n s' new' (contextsOf s' args) data with Ok (a, c) => if 0 <? blen c then Err msg else Ok (a, c) | o => o end).
  { rewrite EB. replace (contextsOf s' args) with (contextsOf s args) by (unfold contextsOf; now rewrite EC). set (cenv := contextsOf s args). intros [|n]; [reflexivity|].
    cbn [decStruct]. rewrite EM, EM', !members_app. cbn [decMembers decMember]. destruct (decMembers _ _ _ _ _ _ ms new data) as [[a c]| | |]; cbn [bind]; auto. destruct (0 <? blen c); reflexivity. }
  assert (BL : forall c : bytes, 0 <? blen c = false <-> c = []).
  { intros [|y c]; unfold blen; cbn [List.length]; split; intros; try discriminate; auto; lia. }
  pose proof (fi_call camel os fs r p PK s DS data args VA VD) as VC. pose proof (fi_call' camel os fs r p PK s s' DS' EC data args VA VD) as VC'. fold new new' in VC, VC'.
  split; [|split; [|split; [|split; [|split]]]].
  - intros a c. rewrite (parses_dec camel os fs r p PK _ _ _ _ VC), (parses_dec camel os fs r p PK _ _ _ _ VC'). split.
    + intros [n H]. rewrite ST in H. destruct (decStruct camel r n s' new' (contextsOf s' args) data) as [[b d]| | |] eqn:E; try discriminate. destruct (0 <? blen d) eqn:D; [discriminate|].
      injection H as <- <-. split; eauto. now apply BL.
    + intros [[n H] ->]. exists n. rewrite ST, H. reflexivity.
  - intros a c. rewrite (fails_dec camel os fs r p PK _ _ _ _ VC), (parses_dec camel os fs r p PK _ _ _ _ VC'). intros [n H] G. exists n. rewrite ST, H.
    destruct (0 <? blen c) eqn:D; [reflexivity|]. apply BL in D. contradiction.
  - intros e NE. rewrite (fails_dec camel os fs r p PK _ _ _ _ VC), (fails_dec camel os fs r p PK _ _ _ _ VC'). intros [n H]. exists n. rewrite ST in H.
    destruct (decStruct camel r n s' new' (contextsOf s' args) data) as [[b d]| | |] eqn:E; try discriminate; [|congruence]. destruct (0 <? blen d); [congruence|discriminate].
  - intros e. rewrite (fails_dec camel os fs r p PK _ _ _ _ VC), (fails_dec camel os fs r p PK _ _ _ _ VC'). intros [n H]. exists n. now rewrite ST, H.
  - intros e. rewrite (panics_dec camel os fs r p PK _ _ _ _ VC), (panics_dec camel os fs r p PK _ _ _ _ VC'). split; intros [n H]; exists n; [|now rewrite ST, H]. rewrite ST in H.
    destruct (decStruct camel r n s' new' (contextsOf s' args) data) as [[b d]| | |] eqn:E; try discriminate; [destruct (0 <? blen d); discriminate|congruence].
  - unfold neverEnds. split; intros H n.
    + apply (run_fuel camel os fs r p PK _ _ _ _ VC'). pose proof (proj1 (run_fuel camel os fs r p PK _ _ _ _ VC n) (H n)) as N. rewrite ST in N.
      destruct (decStruct camel r n s' new' (contextsOf s' args) data) as [[b d]| | |] eqn:E; try discriminate; auto. destruct (0 <? blen d); discriminate.
    + apply (run_fuel camel os fs r p PK _ _ _ _ VC). now rewrite ST, (proj1 (run_fuel camel os fs r p PK _ _ _ _ VC' n) (H n)).
Qed.
Print Assumptions C101_eos.

(** [struct date { u8 m IN [1..12]; u8 d; }], [struct pair { u8 m; u8 d; }] and [struct whole { u8 m; u8 d; eos; }]. *)
Definition months := [mkRange (ILit 1) (Some (ILit 12))].
Definition dateS := mkStruct "date" [] (Some [MField "m" (TInt 8 (Some months)); u8 "d"]).
Definition pairS := mkStruct "pair" [] (Some [u8 "m"; u8 "d"]).
Definition wholeS := mkStruct "whole" [] (Some [u8 "m"; u8 "d"; MEOS]).
Notation dp := (one [dateS; pairS; wholeS]).
Lemma date_package : package camelX osX dp (theRes dp) (theProg dp).
Proof. apply package_of; vm_compute; reflexivity. Qed.
Example C101_case : package camelX osX dp (theRes dp) (theProg dp) /\ defines dp dateS /\ defines dp pairS /\ defines dp wholeS /\
  members_of dateS = [] ++ MField "m" (TInt 8 (Some months)) :: [u8 "d"] /\ members_of pairS = [] ++ MField "m" (TInt 8 None) :: [u8 "d"] /\ members_of wholeS = members_of pairS ++ [MEOS] /\
  parses camelX (theProg dp) dateS (blank camelX (Constant (theRes dp)) dateS) [3; 31; 7] [] [("M", VInt 3); ("D", VInt 31)] [7] /\
  parses camelX (theProg dp) pairS (blank camelX (Constant (theRes dp)) pairS) [3; 31; 7] [] [("M", VInt 3); ("D", VInt 31)] [7] /\
  fails camelX (theProg dp) wholeS (blank camelX (Constant (theRes dp)) wholeS) [3; 31; 7] [] "trailing data disallowed" /\
  parses camelX (theProg dp) pairS (blank camelX (Constant (theRes dp)) pairS) [13; 31] [] [("M", VInt 13); ("D", VInt 31)] [] /\
  fails camelX (theProg dp) dateS (blank camelX (Constant (theRes dp)) dateS) [13; 31] [] "integer constraint violated".
Proof.
  assert (V : forall s d, In s [dateS; pairS; wholeS] -> goBytes d -> validCall camelX dp (theRes dp) s (blank camelX (Constant (theRes dp)) s) d []).
  { intros s d I G. apply (fresh_call [dateS; pairS; wholeS] s); [vm_compute; reflexivity|exact I|destruct I as [<-|[<-|[<-|[]]]]; reflexivity|destruct I as [<-|[<-|[<-|[]]]]; reflexivity|exact G]. }
  assert (G : goBytes [3; 31; 7]) by (apply bytes_ok; vm_compute; reflexivity).
  assert (G1 : goBytes [13; 31]) by (apply bytes_ok; vm_compute; reflexivity).
  split; [exact date_package|]. split; [apply (V dateS _ ltac:(cbn; auto) G)|]. split; [apply (V pairS _ ltac:(cbn; auto) G)|]. split; [apply (V wholeS _ ltac:(cbn; auto) G)|].
  split; [reflexivity|]. split; [reflexivity|]. split; [reflexivity|].
  split; [apply (parses_dec camelX osX _ _ _ date_package _ _ _ _ (V dateS _ ltac:(cbn; auto) G)); exists 9%nat; vm_compute; reflexivity|].
  split; [apply (parses_dec camelX osX _ _ _ date_package _ _ _ _ (V pairS _ ltac:(cbn; auto) G)); exists 9%nat; vm_compute; reflexivity|].
  split; [apply (fails_dec camelX osX _ _ _ date_package _ _ _ _ (V wholeS _ ltac:(cbn; auto) G)); exists 9%nat; vm_compute; reflexivity|].
  split; [apply (parses_dec camelX osX _ _ _ date_package _ _ _ _ (V pairS _ ltac:(cbn; auto) G1)); exists 9%nat; vm_compute; reflexivity|].
  apply (fails_dec camelX osX _ _ _ date_package _ _ _ _ (V dateS _ ltac:(cbn; auto) G1)); exists 9%nat; vm_compute; reflexivity.
Qed.
