(** Fields of a context decode as fields that were read before. *)
From Coq Require Import ZArith String List Bool Lia ZifyBool ZifyNat.
From Verif Require Import Base Ast IntervalsModel InspectModel InspectSpec InspectProofs BranchProofs GoLang GenModel GenDecode GenCheck GenSim GenSimBody GenSimProg GenMono WireSpec WireProofs WireComplete WireFacts GenTerm FwdProofs
  ReachProofs GroupSpec GroupProofs PackageSpec PackageProofs PackageFacts PackageMore ParseFacts IndepSpec UnrollProofs P_Unroll PickProofs CarrySpec.
Import ListNotations.
Open Scope string_scope.
Open Scope list_scope.
Open Scope Z_scope.

Section Carry.
Variable camel : string -> string.
Variable r : resolver.
Variable x : string.
Variable cs' : list string.
Hypothesis XN : x <> "".
Hypothesis XC : ~ In x cs'.
Variable n : nat.
Variables cenv cenv' : amap value.
Variables dat dat' : bytes.
Variable ty : string.
Variable cf : amap value.
Hypothesis CX : alookup x cenv = Some (VStruct ty cf).
Hypothesis CO : forall y, y <> x -> alookup y cenv = alookup y cenv'.
Variable N : list string.
Notation inC g := (exists c t, Context r x = Some c /\ In (g, t) (cmembers c)).
Hypothesis DISJ : forall g h, In g N -> inC h -> camel g <> camel h.
Definition held (fs fs' : amap value) : Prop := (forall g, In g N -> alookup (camel g) fs = alookup (camel g) fs') /\ (forall g, inC g -> alookup (camel g) fs' = alookup (camel g) cf).
Definition does (o o' : outcome (amap value * bytes)) : Prop :=
  match o, o' with
  | Ok (a, c), Ok (a', c') => c = c' /\ held a a'
  | Err e, Err e' => e = e'
  | Panic e, Panic e' => e = e'
  | OutOfFuel, OutOfFuel => True
  | _, _ => False
  end.
Notation dcall := (decCall camel r n).
Lemma found_in : forall g l q, findIntField g l = Ok q -> exists t, In (g, t) l.
Proof.
  intros g. induction l as [|[h t] l IH]; intros q H; cbn [findIntField] in H; [discriminate|]. destruct (String.eqb_spec g h) as [->|NE]; [eexists; now left|].
  try (destruct (String.eqb_spec h g) as [->|NE2]; [eexists; now left|]).
  destruct (IH q H) as [t0 I]. exists t0. now right.
Qed.
Lemma own_ref : forall k f sz fs fs', refWidth r (x :: cs') k f = Some sz -> incl (map fst k) N -> held fs fs' -> refVal camel fs cenv f = refVal camel fs' cenv' (ownRef x f).
Proof.
  intros k f sz fs fs' W I [A B]. unfold refVal, ownRef. unfold refWidth in W. destruct (String.eqb_spec (rscope f) "") as [E|E].
  - destruct (String.eqb_spec (rscope f) x) as [E2|E2]; [congruence|]. destruct (String.eqb_spec (rscope f) ""); [|contradiction].
    rewrite (A (rname f)); auto. apply I. destruct (alookup (rname f) k) as [w|] eqn:L; [|discriminate W]. apply in_map_iff. exists (rname f, w). split; auto. now apply alookup_some_in.
  - unfold ctxField in W. destruct (memb (rscope f) (x :: cs')); [|discriminate]. destruct (String.eqb_spec (rscope f) x) as [E2|E2].
    + cbn [rscope rname String.eqb]. rewrite E2, CX. cbn [asFields bind]. rewrite E2 in W. destruct (Context r x) as [c|] eqn:EC; [|discriminate].
      destruct (findIntField (rname f) (cmembers c)) as [q| | |] eqn:FI; try discriminate. destruct (found_in _ _ _ FI) as [t J]. rewrite (B (rname f)); eauto.
    + destruct (String.eqb_spec (rscope f) ""); [contradiction|]. now rewrite (CO _ E2).
Qed.
Lemma own_base : forall t c, checkBase r cs' t = true -> noPtrT t = true -> decBase r dcall cenv (blen dat) t c = decBase r dcall cenv' (blen dat') t c.
Proof.
  intros t c C P. destruct t as [| | | |nm| |]; cbn [decBase]; try reflexivity; [discriminate P|].
  cbn in C. destruct (Struct r nm) as [s|] eqn:E; [|discriminate]. apply andb_true_iff in C as [_ C]. rewrite forallb_forall in C. eapply call_agree; eauto.
  intros y I. apply CO. intros ->. specialize (C x I). unfold memb in C. apply existsb_exists in C as (z & Iz & Ez). apply String.eqb_eq in Ez. now subst z.
Qed.
Lemma own_for : forall t, checkBase r cs' t = true -> noPtrT t = true -> forall m k c, decFor r dcall cenv (blen dat) m t k c = decFor r dcall cenv' (blen dat') m t k c.
Proof.
  intros t C P. induction m as [|m IH]; intros k c; cbn [decFor]; auto. destruct (k <=? 0); auto. rewrite (own_base t c C P). destruct (decBase r dcall cenv' (blen dat') t c) as [[v c1]| | |]; cbn [bind]; auto. now rewrite IH.
Qed.
Lemma own_while : forall t, checkBase r cs' t = true -> noPtrT t = true -> forall m c, decWhile r dcall cenv (blen dat) m t c = decWhile r dcall cenv' (blen dat') m t c.
Proof.
  intros t C P. induction m as [|m IH]; intros c; cbn [decWhile]; auto. destruct (blen c <=? 0); auto. rewrite (own_base t c C P). destruct (decBase r dcall cenv' (blen dat') t c) as [[v c1]| | |]; cbn [bind]; auto. now rewrite IH.
Qed.
Lemma same_within : forall {A} k c (b b' : bytes -> outcome (A * bytes)), (forall c, b c = b' c) -> decWithin k c b = decWithin k c b'.
Proof. intros A k c b b' H. unfold decWithin. now rewrite H. Qed.
Lemma own_type : forall k k' t fs fs' c, checkType r (x :: cs') k t = true -> checkType r cs' k' (ownType x t) = true -> noPtrT t = true -> incl (map fst k) N -> held fs fs' ->
  decType camel r dcall n cenv (blen dat) fs t c = decType camel r dcall n cenv' (blen dat') fs' (ownType x t) c.
Proof.
  intros k k' t fs fs' c C C' P I H. destruct t as [sz cst| | | |nm|b i|b [[f|i]|]]; cbn [ownType ownLen decType checkType noPtrT] in *; try (now apply own_base).
  - apply andb_true_iff in C' as [C' _]. destruct (integerOf r i) as [j| | |]; cbn [bind]; auto. now rewrite own_for.
  - apply andb_true_iff in C' as [C' _]. apply andb_true_iff in C as [_ W]. destruct (refWidth r (x :: cs') k f) as [sz|] eqn:E; [|discriminate].
    rewrite (own_ref k f sz fs fs' E I H). destruct (refVal camel fs' cenv' (ownRef x f)) as [j| | |]; cbn [bind]; auto. destruct (tipe camel r b) as [g| | |]; cbn [bind]; auto. now rewrite own_for.
  - apply andb_true_iff in C' as [C' _]. destruct (integerOf r i) as [j| | |]; cbn [bind]; auto. unfold decLeaving. destruct (j <? 0); auto. destruct (blen c <? j); auto. apply same_within. intros c0. now rewrite own_while.
  - now rewrite own_while.
Qed.
Lemma held_assign : forall fs fs' g v, In g N -> held fs fs' -> held (assign (camel g) v fs) (assign (camel g) v fs').
Proof.
  intros fs fs' g v I [A B]. split.
  - intros h Ih. rewrite !alookup_assign. rewrite (A g I), (A h Ih). reflexivity.
  - intros h Ih. rewrite alookup_assign_other; auto. intros E. now apply (DISJ g h I Ih).
Qed.
Lemma does_bind : forall o o' k k', does o o' -> (forall a a' c, held a a' -> does (k (a, c)) (k' (a', c))) -> does (bind o k) (bind o' k').
Proof. intros o o' k k' H K. destruct o as [[a c]| | |], o' as [[a' c']| | |]; cbn [does bind] in *; try contradiction; auto. destruct H as [-> H]. auto. Qed.
Lemma does_within : forall k c b b', (forall c, does (b c) (b' c)) -> does (decWithin k c b) (decWithin k c b').
Proof.
  intros k c b b' H. unfold decWithin. destruct (blen c <? k); [reflexivity|]. destruct (k <? 0); [reflexivity|]. eapply does_bind; [apply H|].
  intros a a' c1 HH. destruct (0 <? blen c1); cbn; auto.
Qed.
Definition carried (m : member) : Prop := forall k k' fs fs' c, checkMember r (x :: cs') k m = true -> checkMember r cs' k' (ownMember x m) = true -> noPtrM m = true ->
  incl (map fst k) N -> incl (namesIn [m]) N -> held fs fs' ->
  does (decMember camel r dcall n cenv (blen dat) m fs c) (decMember camel r dcall n cenv' (blen dat') (ownMember x m) fs' c).
Lemma carry_members0 : forall ms, Forall carried ms -> forall k k' fs fs' c, checkMembers r (x :: cs') k ms = true -> checkMembers r cs' k' (map (ownMember x) ms) = true -> forallb noPtrM ms = true ->
  incl (map fst k) N -> incl (namesIn ms) N -> held fs fs' ->
  does (decMembers camel r dcall n cenv (blen dat) ms fs c) (decMembers camel r dcall n cenv' (blen dat') (map (ownMember x) ms) fs' c).
Proof.
  induction ms as [|m ms IH]; intros F k k' fs fs' c C C' P I J H; cbn [decMembers map].
  - cbn. auto.
  - cbn [checkMembers map] in C, C'. apply andb_true_iff in C as [C1 C2]. apply andb_true_iff in C' as [C1' C2']. cbn [forallb] in P. apply andb_true_iff in P as [P1 P2]. rewrite namesIn_cons in J.
    assert (J1 : incl (namesIn [m]) N) by (intros y Hy; apply J, in_app_iff; auto). assert (J2 : incl (namesIn ms) N) by (intros y Hy; apply J, in_app_iff; auto).
    eapply does_bind; [eapply (Forall_inv F); eauto|]. intros a a' c1 H1. eapply (IH (Forall_inv_tail F) (addKnown k m)); eauto using known_incl.
Qed.
Lemma own_choice : forall v all l, choice r v (map (fun c => match c with UCase l ms => UCase l (map (ownMember x) ms) end) all) (map (fun c => match c with UCase l ms => UCase l (map (ownMember x) ms) end) l) =
  option_map (map (ownMember x)) (choice r v all l).
Proof.
  intros v all l. unfold choice. assert (D : forall a, defaultCase (map (fun c => match c with UCase l ms => UCase l (map (ownMember x) ms) end) a) = option_map (map (ownMember x)) (defaultCase a)).
  { induction a as [|[[q|] ms] a IH]; cbn [map defaultCase option_map]; auto. }
  induction l as [|[[q|] ms] l IH]; cbn [map pickCase]; auto. destruct (inList r v q); auto.
Qed.
Lemma carry_member : forall m, carried m.
Proof.
  induction m as [nm t|u tag len cs IH| | |] using member_ind'; intros k k' fs fs' c C C' P I J H.
  - cbn [decMember ownMember checkMember noPtrM] in *. rewrite (own_type k k' t fs fs' c C C' P I H).
    destruct (decType camel r dcall n cenv' (blen dat') fs' (ownType x t) c) as [[v c1]| | |]; cbn [bind does]; auto. split; auto. apply held_assign; auto. apply J. now left.
  - cbn [ownMember] in *. rewrite !decMember_union. cbn zeta. destruct (check_union _ _ _ _ _ _ _ C) as ((sz & W1) & W2 & CC). destruct (check_union _ _ _ _ _ _ _ C') as (_ & _ & CC').
    set (cs1 := map (fun c => match c with UCase l ms => UCase l (map (ownMember x) ms) end) cs) in *.
    assert (B : forall c, does (y <- refVal camel fs cenv tag ;; decPick camel r dcall n cenv dat cs y cs fs c)
                               (y <- refVal camel fs' cenv' (ownRef x tag) ;; decPick camel r dcall n cenv' dat' cs1 y cs1 fs' c)).
    { intros c0. rewrite (own_ref _ _ _ _ _ W1 I H). destruct (refVal camel fs' cenv' (ownRef x tag)) as [y| | |]; cbn [bind]; try (cbn; auto; fail). rewrite !decPick_choice. unfold cs1. rewrite own_choice.
      destruct (choice r y cs cs) as [ms|] eqn:E; cbn [option_map]; [|cbn; auto].
      destruct (choice_in r _ _ _ E) as [l Il]. rewrite Forall_forall in IH. specialize (IH _ Il). cbn in IH. destruct (CC _ Il) as [_ CM].
      assert (Il' : In (UCase l (map (ownMember x) ms)) cs1) by (unfold cs1; apply in_map_iff; exists (UCase l ms); auto). destruct (CC' _ Il') as [_ CM'].
      eapply carry_members0; eauto.
      - cbn [noPtrM] in P. rewrite forallb_forall in P. exact (P _ Il).
      - intros z Hz. apply J. eapply names_case; eauto. }
    destruct len as [[f|i]|]; cbn [option_map ownLen decConstr]; auto.
    + destruct W2 as [sz2 W2]. rewrite (own_ref _ _ _ _ _ W2 I H). destruct (refVal camel fs' cenv' (ownRef x f)) as [y| | |]; cbn [bind]; try (cbn; auto; fail). now apply does_within.
    + destruct (integerOf r i) as [j| | |]; cbn [bind]; try (cbn; auto; fail). unfold decLeaving. destruct (j <? 0); [reflexivity|]. destruct (blen c <? j); [reflexivity|]. now apply does_within.
  - cbn. destruct (0 <? blen c); cbn; auto.
  - reflexivity.
  - cbn. auto.
Qed.
End Carry.
