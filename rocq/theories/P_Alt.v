(** Property C103: different ways to write the same. *)
From Coq Require Import ZArith String List Bool Lia ZifyBool ZifyNat.
From Verif Require Import Base Ast IntervalsModel InspectModel InspectSpec InspectProofs GoLang GenModel GenDecode GenCheck GenSim GenSimBody GenSimProg GenMono WireSpec WireProofs WireComplete WireFacts GenTerm FwdProofs
  PackageSpec PackageProofs PackageFacts PackageMore GenExamples GenWitness IndepSpec AltSpec P_Filter ModProofs.
From Verif Require MemWord.
Import ListNotations.
Open Scope string_scope.
Open Scope list_scope.
Open Scope Z_scope.

Scheme alt_ind_m := Induction for altMember Sort Prop
with alt_ind_ms := Induction for altMembers Sort Prop
with alt_ind_cs := Induction for altCases Sort Prop.
Combined Scheme alt_mut from alt_ind_m, alt_ind_ms, alt_ind_cs.

Section Alt.
Variable camel : string -> string.
Variable r : resolver.
Notation cv := (Constant r).

Lemma alt_list : forall l l', sameSet cv l l' -> forall x, inList r x l = inList r x l'.
Proof.
  intros l l' H x. destruct (inList r x l) eqn:E, (inList r x l') eqn:E'; auto.
  - apply inList_spec, H, inList_spec in E. congruence.
  - apply inList_spec, H, inList_spec in E'. congruence.
Qed.
Lemma alt_count : forall i i', sameCount cv i i' -> exists k, integerOf r i = Ok k /\ integerOf r i' = Ok k.
Proof. intros i i' (k & A & B). exists k. split; now apply integerOf_value. Qed.
Lemma alt_blank_base : forall t t', altBase cv t t' -> blankOf cv t = blankOf cv t'.
Proof. intros t t' H. destruct H; reflexivity. Qed.
Lemma alt_blank : forall t t', altType cv t t' -> blankOf cv t = blankOf cv t'.
Proof.
  intros t t' H. destruct H as [t t' B|b b' i i' B (k & K & K')| | | |]; try reflexivity; [now apply alt_blank_base|]. cbn [blankOf]. rewrite K, K'. now rewrite (alt_blank_base _ _ B).
Qed.
Notation zero := (fun f : string * type => (camel (fst f), blankOf cv (snd f))).
Notation fieldsOf cs := (flat_map (fun c => match c with UCase _ ms => flat_map allFields ms end) cs).
Lemma alt_blanks : (forall m m', altMember cv m m' -> map zero (allFields m) = map zero (allFields m')) /\
  (forall ms ms', altMembers cv ms ms' -> map zero (flat_map allFields ms) = map zero (flat_map allFields ms')) /\
  (forall cs cs', altCases cv cs cs' -> map zero (fieldsOf cs) = map zero (fieldsOf cs')).
Proof.
  apply alt_mut; intros; cbn [allFields flat_map map fst snd]; auto.
  - now rewrite (alt_blank _ _ a).
  - rewrite flat_map_app. cbn [flat_map app]. now rewrite app_nil_r.
  - rewrite !map_app. congruence.
  - rewrite !map_app. congruence.
Qed.

Section Body.
Variable n : nat.
Variable cenv : amap value.
Variable dat : bytes.
Notation dcall := (decCall camel r n).
Notation dbase := (decBase r dcall cenv (blen dat)).
Notation decM := (decMember camel r dcall n cenv (blen dat)).
Notation decMs := (decMembers camel r dcall n cenv (blen dat)).
Lemma alt_allowed : forall o x, allowed cv o x <-> match o with None => true | Some l => inList r x l end = true.
Proof. intros [l|] x; cbn [allowed]; [|tauto]. symmetry. apply inList_spec. Qed.
Lemma alt_int : forall sz o o' c, 0 <= sz -> (forall x, 0 <= x < 2 ^ sz -> allowed cv o x <-> allowed cv o' x) -> goBytes c -> decInt r sz o c = decInt r sz o' c.
Proof.
  intros sz o o' c N S [A L]. unfold decInt. destruct (blen c <? sz / 8) eqn:E; auto. cbn zeta. set (w := firstn (Z.to_nat (sz / 8)) c).
  assert (B : 0 <= be w < 2 ^ sz).
  { assert (AW : all_bytes w) by (unfold w, all_bytes in *; rewrite <- (firstn_skipn (Z.to_nat (sz / 8)) c) in A; now apply Forall_app in A as [A _]).
    pose proof (MemWord.be_range w AW) as R. assert (Q : 0 <= sz / 8) by (apply Z.div_pos; lia). assert (LW : blen w = sz / 8) by (unfold w, blen in *; rewrite firstn_length; lia).
    rewrite LW in R. pose proof (Z.mul_div_le sz 8 ltac:(lia)). split; [apply R|]. eapply Z.lt_le_trans; [apply R|]. apply Z.pow_le_mono_r; lia. }
  specialize (S _ B). rewrite !alt_allowed in S.
  destruct (match o with None => true | Some l => inList r (be w) l end) eqn:P, (match o' with None => true | Some l => inList r (be w) l end) eqn:P'; auto; [symmetry in S|]; now destruct S as [_ S]; specialize (S eq_refl).
Qed.
Lemma alt_base : forall t t', altBase cv t t' -> forall c, goBytes c -> dbase t c = dbase t' c.
Proof.
  intros t t' H c G. destruct H as [|o S|o S|sz o o' N S]; try reflexivity; cbn [decBase].
  - apply alt_int; auto; [lia|]. intros x X. specialize (S x X). cbn [allowed]. tauto.
  - apply alt_int; auto; [lia|]. intros x X. specialize (S x X). cbn [allowed]. tauto.
  - now apply alt_int.
Qed.
Lemma base_good : forall t c v c1, dbase t c = Ok (v, c1) -> goBytes c -> goBytes c1.
Proof. intros t c v c1 H G. eapply good_suffix; eauto. eapply (leaves_base r dcall); eauto. intros. apply leaves_call. Qed.
Lemma alt_for : forall t t', altBase cv t t' -> forall m k c, goBytes c -> decFor r dcall cenv (blen dat) m t k c = decFor r dcall cenv (blen dat) m t' k c.
Proof.
  intros t t' H. induction m as [|m IH]; intros k c G; cbn [decFor]; auto. destruct (k <=? 0); auto. rewrite (alt_base t t' H) by auto. destruct (dbase t' c) as [[v c1]| | |] eqn:E; cbn [bind]; auto. rewrite IH; auto. eapply base_good; eauto.
Qed.
Lemma alt_while : forall t t', altBase cv t t' -> forall m c, goBytes c -> decWhile r dcall cenv (blen dat) m t c = decWhile r dcall cenv (blen dat) m t' c.
Proof.
  intros t t' H. induction m as [|m IH]; intros c G; cbn [decWhile]; auto. destruct (blen c <=? 0); auto. rewrite (alt_base t t' H) by auto. destruct (dbase t' c) as [[v c1]| | |] eqn:E; cbn [bind]; auto. rewrite IH; auto. eapply base_good; eauto.
Qed.
Lemma while_empty : forall t m c vs c1, decWhile r dcall cenv (blen dat) m t c = Ok (vs, c1) -> c1 = [].
Proof.
  intros t. induction m as [|m IH]; intros c vs c1 H; cbn [decWhile] in H; (destruct (blen c <=? 0) eqn:E; [injection H as _ <-; destruct c; [reflexivity|unfold blen in E; cbn [List.length] in E; lia]|]); [discriminate|].
  apply bind_ok in H as ([v c2] & _ & H). apply bind_ok in H as ([w c3] & H & E2). injection E2 as _ <-. eauto.
Qed.
Lemma leaving_none : forall t c, blen c < two63 ->
  decLeaving 0 c (fun c0 => '(vs, c1) <- decWhile r dcall cenv (blen dat) n t c0 ;; Ok (VList vs, c1)) = ('(vs, c1) <- decWhile r dcall cenv (blen dat) n t c ;; Ok (VList vs, c1)).
Proof.
  intros t c L. unfold decLeaving, decWithin. change (0 <? 0) with false. cbn match. assert (P : 0 <= blen c) by (unfold blen; lia). destruct (blen c <? 0) eqn:E; [lia|].
  rewrite Z.sub_0_r, s64_id by lia. rewrite Z.ltb_irrefl, E. replace (firstn (Z.to_nat (blen c)) c) with c by (unfold blen; rewrite Nat2Z.id; now rewrite firstn_all).
  destruct (decWhile r dcall cenv (blen dat) n t c) as [[vs c1]| | |] eqn:W; cbn [bind]; auto. apply while_empty in W as ->. cbn. unfold blen. rewrite Nat2Z.id. now rewrite skipn_all.
Qed.
Lemma alt_tipe : forall t t', altBase cv t t' -> (x <- tipe camel r t ;; Ok (gsize x)) = (x <- tipe camel r t' ;; Ok (gsize x)).
Proof. intros t t' H. destruct H; reflexivity. Qed.
Lemma within_good : forall {A} k c (b b' : bytes -> outcome (A * bytes)), goBytes c -> (forall c, goBytes c -> b c = b' c) -> decWithin k c b = decWithin k c b'.
Proof. intros A k c b b' G H. unfold decWithin. rewrite H; auto. now apply good_firstn. Qed.
Lemma leaving_good : forall {A} k c (b b' : bytes -> outcome (A * bytes)), goBytes c -> (forall c, goBytes c -> b c = b' c) -> decLeaving k c b = decLeaving k c b'.
Proof. intros A k c b b' G H. unfold decLeaving. destruct (k <? 0); auto. destruct (blen c <? k); auto. now apply within_good. Qed.
Lemma alt_type : forall t t', altType cv t t' -> forall fs c, goBytes c -> decType camel r dcall n cenv (blen dat) fs t c = decType camel r dcall n cenv (blen dat) fs t' c.
Proof.
  intros t t' H fs c G. destruct H as [t t' B|b b' i i' B C|b b' B|b b' l l' B LN|b b' i B Z0|b b' i B Z0]; cbn [decType].
  - pose proof (alt_base t t' B c G) as E. destruct B; auto.
  - destruct (alt_count _ _ C) as (k & -> & ->). cbn [bind]. now rewrite (alt_for b b' B).
  - now rewrite (alt_while b b' B).
  - destruct LN as [[f|i]|i i' C].
    + destruct (refVal camel fs cenv f) as [x| | |]; cbn [bind]; auto. pose proof (alt_tipe b b' B) as T.
      destruct (tipe camel r b) as [g| | |], (tipe camel r b') as [g'| | |]; cbn [bind] in *; try discriminate; try congruence. injection T as ->. now rewrite (alt_for b b' B).
    + destruct (integerOf r i) as [k| | |]; cbn [bind]; auto. apply leaving_good; auto. intros c0 G0. now rewrite (alt_while b b' B).
    + destruct (alt_count _ _ C) as (k & -> & ->). cbn [bind]. apply leaving_good; auto. intros c0 G0. now rewrite (alt_while b b' B).
  - apply integerOf_value in Z0 as ->. cbn [bind]. rewrite leaving_none by apply G. now rewrite (alt_while b b' B).
  - apply integerOf_value in Z0 as ->. cbn [bind]. rewrite leaving_none by apply G. now rewrite (alt_while b b' B).
Qed.
Lemma member_good : forall m fs c fs1 c1, decM m fs c = Ok (fs1, c1) -> goBytes c -> goBytes c1.
Proof.
  intros m fs c fs1 c1 H G. eapply good_suffix; eauto. apply (tame_member camel r dcall (leaves_call camel r n) n cenv dat m _ _ _ _ H).
Qed.
Lemma choice_default : forall x cs, (forall ms, ~ In (UCase None ms) cs) -> forall ms, choice r x (cs ++ [UCase None ms]) (cs ++ [UCase None ms]) = match choice r x cs cs with Some q => Some q | None => Some ms end.
Proof.
  intros x cs N ms. unfold choice. assert (P : forall l, pickCase r x (l ++ [UCase None ms]) = pickCase r x l) by (induction l as [|[[q|] m] l IH]; cbn [app pickCase]; auto; destruct (inList r x q); auto).
  assert (D : forall l, (forall q, ~ In (UCase None q) l) -> defaultCase l = None /\ defaultCase (l ++ [UCase None ms]) = Some ms).
  { induction l as [|[[q|] m] l IH]; intros H; cbn [app defaultCase]; auto; [apply IH; intros w I; exact (H w (or_intror I))|destruct (H m (or_introl eq_refl))]. }
  rewrite P. destruct (D cs N) as [-> ->]. destruct (pickCase r x cs); auto.
Qed.
Lemma alt_body : (forall m m', altMember cv m m' -> forall fs c, goBytes c -> decM m fs c = decM m' fs c) /\
  (forall ms ms', altMembers cv ms ms' -> forall fs c, goBytes c -> decMs ms fs c = decMs ms' fs c) /\
  (forall cs cs', altCases cv cs cs' -> forall x, match pickCase r x cs, pickCase r x cs' with Some a, Some b => forall fs c, goBytes c -> decMs a fs c = decMs b fs c | None, None => True | _, _ => False end /\
     match defaultCase cs, defaultCase cs' with Some a, Some b => forall fs c, goBytes c -> decMs a fs c = decMs b fs c | None, None => True | _, _ => False end).
Proof.
  assert (UN : forall len len' tag fs (b b' : Z -> amap value -> bytes -> outcome (amap value * bytes)), altOpt cv len len' -> (forall x c, goBytes c -> b x fs c = b' x fs c) -> forall c, goBytes c ->
    match len with None => x <- refVal camel fs cenv tag ;; b x fs c | Some l => decConstr camel r cenv fs c l (fun c => x <- refVal camel fs cenv tag ;; b x fs c) end =
    match len' with None => x <- refVal camel fs cenv tag ;; b' x fs c | Some l => decConstr camel r cenv fs c l (fun c => x <- refVal camel fs cenv tag ;; b' x fs c) end).
  { intros len len' tag fs b b' O E c L. assert (B : forall c, goBytes c -> (x <- refVal camel fs cenv tag ;; b x fs c) = (x <- refVal camel fs cenv tag ;; b' x fs c)).
    { intros c0 L0. destruct (refVal camel fs cenv tag); cbn [bind]; auto. }
    destruct O as [|l l' [[f|i]|i i' C]]; cbn [decConstr].
    - now apply B.
    - destruct (refVal camel fs cenv f); cbn [bind]; auto. now apply within_good.
    - destruct (integerOf r i) as [k| | |]; cbn [bind]; auto. now apply leaving_good.
    - destruct (alt_count _ _ C) as (k & -> & ->). cbn [bind]. now apply leaving_good. }
  apply alt_mut.
  - intros nm t t' H fs c L. cbn [decMember]. now rewrite (alt_type t t' H).
  - intros u u' tag len len' cs cs' O C IH fs c L. rewrite !decMember_union. cbn zeta. apply (UN len len' tag fs (fun x fs c => decPick camel r dcall n cenv dat cs x cs fs c) (fun x fs c => decPick camel r dcall n cenv dat cs' x cs' fs c)); auto. intros x c0 L0. rewrite !decPick_choice. unfold choice. destruct (IH x) as [P D].
    destruct (pickCase r x cs), (pickCase r x cs'); try contradiction; auto. destruct (defaultCase cs), (defaultCase cs'); try contradiction; auto.
  - intros u u' tag len len' cs cs' O C IH N fs c L. rewrite !decMember_union. cbn zeta. apply (UN len len' tag fs (fun x fs c => decPick camel r dcall n cenv dat cs x cs fs c) (fun x fs c => decPick camel r dcall n cenv dat (cs' ++ [UCase None []]) x (cs' ++ [UCase None []]) fs c)); auto. intros x c0 L0. rewrite !decPick_choice.
    assert (N' : forall ms, ~ In (UCase None ms) cs'). { clear - C N. induction C as [|l l' ms ms' cs cs' A B C IH]; intros q; [auto|]. intros [E|I]; [|refine (IH _ q I); intros w J; exact (N w (or_intror J))]. injection E as -> ->. inversion A; subst. exact (N ms (or_introl eq_refl)). }
    rewrite (choice_default x cs' N'). unfold choice. destruct (IH x) as [P D].
    destruct (pickCase r x cs), (pickCase r x cs'); try contradiction; auto. destruct (defaultCase cs), (defaultCase cs'); try contradiction; auto.
  - reflexivity.
  - reflexivity.
  - reflexivity.
  - reflexivity.
  - intros m m' ms ms' A IA B IB fs c L. cbn [decMembers]. rewrite (IA fs c L). destruct (decM m' fs c) as [[a c1]| | |] eqn:E; cbn [bind]; auto. apply IB. eapply member_good; eauto.
  - intros x. cbn. auto.
  - intros l l' ms ms' cs cs' A B IB C IC x. destruct (IC x) as [P D]. destruct A as [|q q' S]; cbn [pickCase defaultCase]; split; auto. rewrite (alt_list _ _ S). destruct (inList r x q'); auto.
Qed.
End Body.
End Alt.

Section Go.
Variable camel : string -> string.
Variable r : resolver.
Notation cv := (Constant r).
Notation holds := (Forall2 (fun (f : string * type) (kv : string * value) => fst kv = camel (fst f) /\ goValue camel r (snd f) (snd kv))).
Lemma alt_value : forall t t', altType cv t t' -> forall v, goValue camel r t v -> goValue camel r t' v.
Proof.
  intros t t' H v. destruct H as [t t' B|b b' i i' B (k & K & K')| | | |]; cbn [goValue]; auto; [destruct B; auto|].
  intros (vs & -> & E). exists vs. split; auto. congruence.
Qed.
Lemma alt_holds : (forall m m', altMember cv m m' -> forall l, holds (allFields m) l -> holds (allFields m') l) /\
  (forall ms ms', altMembers cv ms ms' -> forall l, holds (flat_map allFields ms) l -> holds (flat_map allFields ms') l) /\
  (forall cs cs', altCases cv cs cs' -> forall l, holds (flat_map (fun c => match c with UCase _ ms => flat_map allFields ms end) cs) l -> holds (flat_map (fun c => match c with UCase _ ms => flat_map allFields ms end) cs') l).
Proof.
  apply alt_mut; intros; cbn [allFields flat_map] in *; auto.
  - inversion H as [|? ? ? ? [E V] F]; subst. inversion F; subst. constructor; auto. split; auto. cbn [snd] in *. eapply alt_value; eauto.
  - rewrite flat_map_app. cbn [flat_map app]. rewrite app_nil_r. auto.
  - apply Forall2_app_inv_l in H1 as (l1 & l2 & A & B & ->). apply Forall2_app; auto.
  - apply Forall2_app_inv_l in H1 as (l1 & l2 & A & B & ->). apply Forall2_app; auto.
Qed.
End Go.

(** C103.  Two structs whose members are the same but for the way they are written have the same fields
    when new, and their parsers do the same with every receiver: [char] is [u8], an array without a length is one that leaves
    nothing, a union without a default has an empty one, unions need no names, of counts and labels only
    the values matter, and of constraints only which integers of the size they let through. *)
Theorem C103_same : forall camel os fs r p, package camel os fs r p ->
  forall s s', defines fs s -> defines fs s' -> scontexts s' = scontexts s -> altMembers (Constant r) (members_of s) (members_of s') ->
  blank camel (Constant r) s = blank camel (Constant r) s' /\
  forall fs0 data args, goStruct camel r s fs0 -> ctxValues camel r s args -> goBytes data ->
  (forall fs1 rest, parses camel p s fs0 data args fs1 rest <-> parses camel p s' fs0 data args fs1 rest) /\
  (forall e, fails camel p s fs0 data args e <-> fails camel p s' fs0 data args e) /\
  (forall m, panics camel p s fs0 data args m <-> panics camel p s' fs0 data args m) /\
  (neverEnds camel p s fs0 data args <-> neverEnds camel p s' fs0 data args).
Proof.
  intros camel os fs r p PK s s' DS DS' EC AM. split; [unfold blank; apply (alt_blanks camel r); exact AM|]. intros fs0 data args GS VA VD.
  assert (ST : forall n, decStruct camel r n s fs0 (contextsOf s args) data = decStruct camel r n s' fs0 (contextsOf s' args) data).
  { intros [|n]; [reflexivity|]. cbn [decStruct]. replace (contextsOf s' args) with (contextsOf s args) by (unfold contextsOf; now rewrite EC). apply (alt_body camel r); auto. }
  assert (VC : validCall camel fs r s fs0 data args) by (constructor; auto).
  assert (VC' : validCall camel fs r s' fs0 data args).
  { constructor; auto. - unfold ctxValues in *. now rewrite EC. - unfold goStruct in *. now apply (alt_holds camel r) with (ms := members_of s). }
  split; [|split; [|split]].
  - intros a c. rewrite (parses_dec camel os fs r p PK _ _ _ _ VC), (parses_dec camel os fs r p PK _ _ _ _ VC'). split; intros [n H]; exists n; [now rewrite <- ST|now rewrite ST].
  - intros e. rewrite (fails_dec camel os fs r p PK _ _ _ _ VC), (fails_dec camel os fs r p PK _ _ _ _ VC'). split; intros [n H]; exists n; [now rewrite <- ST|now rewrite ST].
  - intros e. rewrite (panics_dec camel os fs r p PK _ _ _ _ VC), (panics_dec camel os fs r p PK _ _ _ _ VC'). split; intros [n H]; exists n; [now rewrite <- ST|now rewrite ST].
  - split; intros H n.
    + apply (run_fuel camel os fs r p PK _ _ _ _ VC'). rewrite <- ST. apply (run_fuel camel os fs r p PK _ _ _ _ VC). apply H.
    + apply (run_fuel camel os fs r p PK _ _ _ _ VC). rewrite ST. apply (run_fuel camel os fs r p PK _ _ _ _ VC'). apply H.
Qed.
Print Assumptions C103_same.

(** [struct one { u8 k; u8 n IN [1, 2, 3]; union u[k] with length n { 1..2: u8 a; u8 b[]; 3: char d[..0]; }; u8 e[..0]; }] and
    [struct two { u8 k IN [0..255]; u8 n IN [1..3]; union w[k] with length n { 1, 2: char a; char b[..0]; 3: u8 d[]; default: ; }; u8 e[]; }]. *)
Definition byteT := TInt 8 None.
Definition rg (a b : Z) := mkRange (ILit a) (Some (ILit b)).
Definition sg (a : Z) := mkRange (ILit a) None.
Definition nothing := Some (LLeftover (ILit 0)).
Definition alt1 := mkStruct "one" [] (Some [MField "k" byteT; MField "n" (TInt 8 (Some [sg 1; sg 2; sg 3]));
  MUnion "u" (local "k") (Some (LRef (local "n"))) [UCase (Some [rg 1 2]) [MField "a" byteT; MField "b" (TVar byteT None)]; UCase (Some [sg 3]) [MField "d" (TVar TChar nothing)]];
  MField "e" (TVar byteT nothing)]).
Definition alt2 := mkStruct "two" [] (Some [MField "k" (TInt 8 (Some [rg 0 255])); MField "n" (TInt 8 (Some [rg 1 3]));
  MUnion "w" (local "k") (Some (LRef (local "n"))) [UCase (Some [sg 1; sg 2]) [MField "a" TChar; MField "b" (TVar TChar nothing)]; UCase (Some [sg 3]) [MField "d" (TVar byteT None)]; UCase None []];
  MField "e" (TVar byteT None)]).
Notation al := (one [alt1; alt2]).
Lemma al_package : package camelX osX al (theRes al) (theProg al).
Proof. apply package_of; vm_compute; reflexivity. Qed.
Example C103_case : package camelX osX al (theRes al) (theProg al) /\ defines al alt1 /\ defines al alt2 /\ altMembers (Constant (theRes al)) (members_of alt1) (members_of alt2) /\
  parses camelX (theProg al) alt1 (blank camelX (Constant (theRes al)) alt1) [2; 3; 7; 8; 9; 5; 6] []
    [("K", VInt 2); ("N", VInt 3); ("A", VInt 7); ("B", VList [VInt 8; VInt 9]); ("D", VNil); ("E", VList [VInt 5; VInt 6])] [] /\
  parses camelX (theProg al) alt2 (blank camelX (Constant (theRes al)) alt2) [2; 3; 7; 8; 9; 5; 6] []
    [("K", VInt 2); ("N", VInt 3); ("A", VInt 7); ("B", VList [VInt 8; VInt 9]); ("D", VNil); ("E", VList [VInt 5; VInt 6])] [] /\
  fails camelX (theProg al) alt1 (blank camelX (Constant (theRes al)) alt1) [4; 1; 7; 8] [] "trailing data disallowed" /\
  fails camelX (theProg al) alt2 (blank camelX (Constant (theRes al)) alt2) [4; 1; 7; 8] [] "trailing data disallowed".
Proof.
  assert (V : forall s d, In s [alt1; alt2] -> goBytes d -> validCall camelX al (theRes al) s (blank camelX (Constant (theRes al)) s) d []).
  { intros s d I G. apply (fresh_call [alt1; alt2] s); [vm_compute; reflexivity|exact I|destruct I as [<-|[<-|[]]]; reflexivity|destruct I as [<-|[<-|[]]]; reflexivity|exact G]. }
  assert (G : goBytes [2; 3; 7; 8; 9; 5; 6]) by (apply bytes_ok; vm_compute; reflexivity).
  assert (G1 : goBytes [4; 1; 7; 8]) by (apply bytes_ok; vm_compute; reflexivity).
  split; [exact al_package|]. split; [apply (V alt1 _ ltac:(cbn; auto) G)|]. split; [apply (V alt2 _ ltac:(cbn; auto) G)|]. split.
  - assert (S : forall l l', (forall x, inList (theRes al) x l = inList (theRes al) x l') -> sameSet (Constant (theRes al)) l l') by (intros l l' H x; rewrite <- !inList_spec, H; tauto).
    cbn [members_of alt1 alt2 smembers]. constructor; [constructor; constructor; apply AB_int; [lia|]; intros x X; cbn [allowed]; rewrite <- inList_spec; change (2 ^ 8) with 256 in X; cbn; lia|]. constructor; [constructor; constructor; apply AB_int; [lia|]; intros x _; apply S; intros y; cbn; lia|].
    constructor; [|constructor; [constructor; apply AT_none; [constructor; cbn; auto|reflexivity]|constructor]].
    apply (AM_default _ "u" "w" _ _ _ _ [UCase (Some [sg 1; sg 2]) [MField "a" TChar; MField "b" (TVar TChar nothing)]; UCase (Some [sg 3]) [MField "d" (TVar byteT None)]]).
    + repeat constructor.
    + constructor; [constructor; apply S; intros x; cbn; lia| |].
      * constructor; [constructor; constructor; constructor; cbn; auto|]. constructor; [constructor; apply AT_all; [constructor; cbn; auto|reflexivity]|constructor].
      * constructor; [constructor; apply S; reflexivity| |constructor]. constructor; [constructor; apply AT_none; [constructor; cbn; auto|reflexivity]|constructor].
    + intros ms [E|[E|[]]]; discriminate E.
  - split; [apply (parses_dec camelX osX _ _ _ al_package _ _ _ _ (V alt1 _ ltac:(cbn; auto) G)); exists 9%nat; vm_compute; reflexivity|].
    split; [apply (parses_dec camelX osX _ _ _ al_package _ _ _ _ (V alt2 _ ltac:(cbn; auto) G)); exists 9%nat; vm_compute; reflexivity|].
    split; [apply (fails_dec camelX osX _ _ _ al_package _ _ _ _ (V alt1 _ ltac:(cbn; auto) G1)); exists 9%nat; vm_compute; reflexivity|].
    apply (fails_dec camelX osX _ _ _ al_package _ _ _ _ (V alt2 _ ltac:(cbn; auto) G1)); exists 9%nat; vm_compute; reflexivity.
Qed.
