(** Property C89: how many test vectors are made.

    [GenerateFiles grow ords sel os n fs rn] is tv.GenerateFiles (TvModel.v); [sel] is the
    selector, [rn] the random source.  [counts r fs k]: the number [k x] is large enough for every
    struct [x], where choices multiply and cases add up (CountSpec.v). *)
From Coq Require Import ZArith String List Bool Arith Lia Permutation.
From Verif Require Import PegModel PegGrammar PegTop.
From Verif Require Import Base Ast IntervalsModel IntervalsSpec InspectModel InspectSpec InspectProofs ResDet GoLang GenModel PackageSpec GenExamples GenWitness
  TvModel TvConstraints TvHeap TvFacts TvFinish TvSucceed TvWitness CountSpec TvCount P_Parse.
Import ListNotations.
Open Scope string_scope.
Open Scope list_scope.
Open Scope nat_scope.

Lemma seen_struct : forall os fs r, all_valid os -> NewResolverFiles os fs = Ok r -> forall n s, StructNonExtern r n = Ok s ->
  sname s = n /\ Extern s = false /\ exists f, In f fs /\ In s (fstructs f).
Proof.
  intros os fs r V R n s H. unfold StructNonExtern in H. destruct (Struct r n) as [s'|] eqn:E; [|discriminate]. destruct (Extern s') eqn:X; [discriminate|]. injection H as ->.
  destruct (addFiles_answers _ _ _ _ _ V R) as (A1 & _). apply A1 in E; auto. destruct E as [E|(f & I & J & N)]; [discriminate E|]. eauto.
Qed.

(** A suite has at most as many vectors as were counted. *)
Theorem C89_bound : forall grow ords sel os n fs rn c, (forall j vs, List.length (sel j vs) <= List.length vs) -> all_valid os ->
  GenerateFiles grow ords sel os n fs rn = Ok c ->
  forall r, NewResolverFiles os fs = Ok r -> forall k, counts r fs k ->
  forall u, In u c -> List.length (svectors u) <= k (stype u).
Proof.
  intros grow ords sel os n fs rn c HS V G r R k K u I. unfold GenerateFiles in G. rewrite R in G. cbn [bind] in G.
  destruct (suites grow ords sel r n (flat_map fstructs fs) _) as [[ss g]|e|e|] eqn:S; try discriminate. cbn [bind] in G. injection G as <-.
  apply in_map_iff in I as (x & <- & I). cbn [svectors stype]. rewrite map_length.
  refine (suites_count grow ords sel HS r k _ n _ _ _ _ _ S x I).
  - intros nm s H. destruct (seen_struct os fs r V R nm s H) as (<- & X & D). now apply K.
  - intros s J X. apply in_flat_map in J as (f & J1 & J2). apply K; eauto.
Qed.
Print Assumptions C89_bound.

(** With a selector that keeps at most [b] vectors, as a random sample does, no suite of a struct
    with members has more. *)
Lemma loop_kept : forall grow sel b, (forall j vs, List.length (sel j vs) <= b) -> forall mem ms vs g l g', ms <> [] ->
  membersLoop grow sel mem ms vs g = Ok (l, g') -> List.length l <= b.
Proof.
  intros grow sel b HS mem ms vs g l g' N H. destruct ms as [|m ms]; [congruence|]. cbn [membersLoop] in H.
  destruct (membersLoop _ _ _ _ _ _) as [[x g1]|e|e|]; try discriminate. cbn [bind] in H. destruct (extend _ _ _ _) as [[y g2]|e|e|]; try discriminate. cbn [bind] in H. unfold select in H. injection H as <- _. apply HS.
Qed.
Theorem C89_selected : forall grow ords sel os n fs rn c b, (forall j vs, List.length (sel j vs) <= b) -> GenerateFiles grow ords sel os n fs rn = Ok c ->
  forall u, In u c -> List.length (svectors u) <= Nat.max 1 b.
Proof.
  intros grow ords sel os n fs rn c b HS G u I. unfold GenerateFiles in G. destruct (NewResolverFiles os fs) as [r|e|e|]; try discriminate. cbn [bind] in G.
  destruct (suites grow ords sel r n (flat_map fstructs fs) _) as [[ss g]|e|e|] eqn:S; try discriminate. cbn [bind] in G. injection G as <-.
  apply in_map_iff in I as (x & <- & I). cbn [svectors]. rewrite map_length. clear -HS S I. revert S I. generalize (mkG [] 0 [] rn 0) as g0. intros g0. revert ss g g0.
  induction (flat_map fstructs fs) as [|s l IH]; intros ss g g0 S I; cbn [suites] in S; [injection S as <- _; destruct I|].
  destruct (Extern s); [eauto|]. destruct (newMap _ _) as [m g1]. destruct (structure _ _ _ _ _ _ _) as [[vs g2]|e|e|] eqn:E; try discriminate. cbn [bind] in S.
  destruct (suites _ _ _ _ _ _ _) as [[rest g3]|e|e|] eqn:S2; try discriminate. cbn [bind] in S. injection S as <- _. destruct I as [<-|I]; [|eauto].
  cbn [snd]. unfold structure, structureWith in E. destruct (cloneGlobalMap _ _ _) as [[cm g4]|e|e|]; try discriminate. cbn [bind] in E. destruct (newSlice [] g4) as [d g5].
  destruct (gmembers _ _ _ _ _ _ _ _ _) as [[ws g6]|e|e|] eqn:M; try discriminate. cbn [bind] in E. injection E as <- _.
  destruct n as [|n]; [discriminate M|]. cbn [gmembers] in M. destruct (members_of s) as [|m1 ms]; [cbn [membersLoop] in M; injection M as <- _; change (1 <= Nat.max 1 b); lia|].
  apply (loop_kept _ _ b HS) in M; [lia|discriminate].
Qed.
Print Assumptions C89_selected.

(** Without one there is no bound in terms of the number of declarations and members:
    [struct two { u8 t; union u[t] { 0: u8 a; 1: u8 b; }; }  struct many { struct two e[N]; }] *)
Definition two := mkStruct "two" [] (Some [u8 "t"; MUnion "u" (local "t") None [UCase (is 0) [u8 "a"]; UCase (is 1) [u8 "b"]]]).
Definition many (N : Z) := mkStruct "many" [] (Some [MField "e" (TFixed (TStruct "two") (ILit N))]).
Definition manyFiles (N : Z) := one [two; many N].

Section Many.
Variable grow : nat -> nat -> nat.
Variable ords : nat -> uorders.
Definition every (_ : nat) (vs : list vec) : list vec := vs.
Variable r : resolver.

Ltac bnd H q := match type of H with bind ?x _ = Ok _ => let E := fresh "E" in destruct x as [q| | |] eqn:E; cbn [bind] in H; try discriminate H end.

Lemma array_exact : forall elem c, (forall g l g', elem g = Ok (l, g') -> List.length l = c) ->
  forall n v g l g', arrayLoop grow ords every elem n v g = Ok (l, g') -> List.length l = c ^ n * List.length v.
Proof.
  intros elem c He. induction n as [|n IH]; intros v g l g' H; cbn [arrayLoop] in H; [injection H as <- _; cbn; lia|].
  bnd H q1. destruct q1 as [w g1]. bnd H q2. destruct q2 as [v1 g2]. apply He in E. apply cross_length in E0. cbn [select] in H. apply IH in H.
  rewrite H. unfold every. rewrite E0, E. cbn [Nat.pow]. rewrite !Nat.mul_assoc. f_equal. apply Nat.mul_comm.
Qed.
Lemma extend_exact : forall mem c, (forall g l g', mem g = Ok (l, g') -> List.length l = c) ->
  forall vs g e g', extend grow mem vs g = Ok (e, g') -> List.length e = c * List.length vs.
Proof.
  intros mem c Hm. induction vs as [|v vs IH]; intros g e g' H; cbn [extend] in H; [injection H as <- _; cbn; lia|].
  bnd H q1. destruct q1 as [mvs g1]. destruct (prepend grow v mvs g1) as [x g2] eqn:P. bnd H q2. destruct q2 as [rest g3]. injection H as <- _.
  apply Hm in E. apply prepend_length in P. apply IH in E0. rewrite app_length, P, E, E0. cbn [List.length]. lia.
Qed.
Lemma u8_exact : forall fuel callS strct gen nm g l g', gmember grow ords every r fuel callS strct gen (u8 nm) g = Ok (l, g') -> List.length l = 1.
Proof. intros fuel callS strct gen nm g l g' H. cbn [gmember u8 field] in H. eapply (int_count r fuel); eauto. Qed.
Lemma case_exact : forall n nm ev g l g', gmembers grow ords every r n two [u8 nm] [ev] g = Ok (l, g') -> List.length l = 1.
Proof.
  intros n nm ev g l g' H. destruct n as [|n]; [discriminate H|]. cbn [gmembers membersLoop bind] in H. bnd H q1. destruct q1 as [e g1]. unfold select, every in H. injection H as <- _.
  apply (extend_exact _ 1) in E; [exact E|]. intros. eapply u8_exact; eauto.
Qed.
Lemma two_branches : exists b0 b1, NewBranches r two (local "t") [UCase (is 0) [u8 "a"]; UCase (is 1) [u8 "b"]] = Ok [b0; b1] /\
  bcase b0 = UCase (is 0) [u8 "a"] /\ bcase b1 = UCase (is 1) [u8 "b"].
Proof. eexists _, _. split; [vm_compute; reflexivity|]. split; reflexivity. Qed.

Lemma two_exact : forall n g l g', structureWith ords (gmembers grow ords every r n) two g = Ok (l, g') -> List.length l = 2.
Proof.
  intros n g l g' H. unfold structureWith in H. bnd H q1. destruct q1 as [c g1]. destruct (newSlice [] g1) as [d g2] eqn:NS. bnd H q2. destruct q2 as [vs g3]. injection H as <- _.
  destruct n as [|n]; [discriminate E0|]. cbn [gmembers] in E0.
  replace (members_of two) with [u8 "t"; MUnion "u" (local "t") None [UCase (is 0) [u8 "a"]; UCase (is 1) [u8 "b"]]] in E0 by reflexivity. cbn [membersLoop bind] in E0.
  bnd E0 q3. destruct q3 as [vs1 g4]. bnd E1 q4. destruct q4 as [ext g5]. unfold select, every in E1. injection E1 as <- <-.
  bnd E0 q5. destruct q5 as [ext2 g6]. unfold select, every in E0. injection E0 as <- _.
  apply (extend_exact _ 1) in E1; [|intros; eapply u8_exact; eauto]. rewrite E1, Nat.mul_1_l. clear E1 ext2 g6.
  cbn [extend vcons bind] in E2. bnd E2 q6. destruct q6 as [mvs g7]. destruct (prepend grow _ mvs g7) as [e g8] eqn:P. injection E2 as <- _. rewrite app_nil_r. rewrite (prepend_length _ _ _ _ _ _ P). clear P e g8.
  cbn [gmember] in E0. destruct two_branches as (b0 & b1 & NB & C0 & C1). rewrite NB in E0. cbn [bind] in E0.
  assert (L : cLookupRef (mapOf (setCur c g2) (cur (setCur c g2))) (local "t") = None).
  { unfold cloneGlobalMap in E. bnd E cc. unfold newMap in E. injection E as <- <-. unfold newSlice in NS. injection NS as <- <-. cbn [setCur cur tick maps mapOf].
    unfold mapOf, setCur. cbn [maps]. rewrite app_nth2 by lia. rewrite Nat.sub_diag. cbn [nth]. unfold cCloneGlobal in E1. bnd E1 c1. injection E1 as <-. unfold cLookupRef. rewrite clearLocal_lookup. reflexivity. }
  rewrite L in E0. cbn [unionOptions] in E0. bnd E0 q7. destruct q7 as [base g9]. bnd E0 q8. destruct q8 as [res g10]. injection E0 as <- _.
  clear -E2 C0 C1. cbn [unionLoop] in E2.
  bnd E2 q1. destruct q1 as [c1 h1]. bnd E2 q2. destruct q2 as [x1 h2]. bnd E2 q3. destruct q3 as [y1 h3]. destruct (emptyVec h3) as [ev1 h4]. bnd E2 q4. destruct q4 as [v1 h5].
  bnd E2 q5. destruct q5 as [v2 h6]. injection E2 as <- _.
  bnd E4 q1. destruct q1 as [c2 j1]. bnd E4 q2. destruct q2 as [x2 j2]. bnd E4 q3. destruct q3 as [y2 j3]. destruct (emptyVec j3) as [ev2 j4]. bnd E4 q4. destruct q4 as [w2 j5]. injection E4 as <- _.
  rewrite C0 in E3. rewrite C1 in E7. cbn [ucase_members] in E3, E7. apply case_exact in E3. apply case_exact in E7. rewrite !app_length, E3, E7. reflexivity.
Qed.

Lemma many_exact : forall N n g l g', (0 <= N)%Z -> Struct r "two" = Some two -> 
  structureWith ords (gmembers grow ords every r n) (many N) g = Ok (l, g') -> List.length l = 2 ^ Z.to_nat N.
Proof.
  intros N n g l g' P HT H. unfold structureWith in H. bnd H q1. destruct q1 as [c g1]. destruct (newSlice [] g1) as [d g2] eqn:NS. bnd H q2. destruct q2 as [vs g3]. injection H as <- _.
  destruct n as [|n]; [discriminate E0|]. cbn [gmembers] in E0.
  replace (members_of (many N)) with [MField "e" (TFixed (TStruct "two") (ILit N))] in E0 by reflexivity. cbn [membersLoop bind] in E0.
  bnd E0 q3. destruct q3 as [vs1 g4]. unfold select, every in E0. injection E0 as <- _.
  apply (extend_exact _ (2 ^ Z.to_nat N)) in E1; [rewrite E1; cbn [List.length]; lia|]. clear -HT. intros g l g' H. cbn [gmember field] in H.
  destruct (emptyVec g) as [iv g1]. cbn [Integer bind] in H. apply (array_exact _ 2) in H; [rewrite H; cbn [List.length]; lia|].
  clear -HT. intros g l g' H. unfold StructNonExtern in H. rewrite HT in H. cbn [two Extern smembers bind] in H. eapply two_exact; eauto.
Qed.
End Many.

Lemma many_resolves : forall os N, all_valid os -> exists r, NewResolverFiles os (manyFiles N) = Ok r /\
  Struct r "two" = Some two /\ Struct r "many" = Some (many N).
Proof.
  intros os N V. assert (VX : all_valid osX) by exact id_orders_valid.
  assert (X : exists r, NewResolverFiles osX (manyFiles N) = Ok r) by (eexists; vm_compute; reflexivity). destruct X as (rx & X).
  pose proof (resolver_same os osX (manyFiles N) V VX) as S. rewrite X in S.
  destruct (NewResolverFiles os (manyFiles N)) as [r|e|e|] eqn:R; try contradiction. exists r. split; auto.
  destruct (addFiles_answers _ _ _ _ _ V R) as (A1 & _).
  split; (apply A1; [reflexivity|right; eexists; split; [left; reflexivity|]; split; [cbn; auto|reflexivity]]).
Qed.

Lemma suites_each : forall grow ords sel r n ss g l g', suites grow ords sel r n ss g = Ok (l, g') ->
  forall s, In s ss -> Extern s = false -> exists vs h h', structure grow ords sel r n s h = Ok (vs, h') /\ In (sname s, vs) l.
Proof.
  induction ss as [|s0 ss IH]; intros g l g' S s I X; [destruct I|]. cbn [suites] in S. destruct I as [->|I].
  - rewrite X in S. destruct (newMap _ _) as [m g1]. destruct (structure _ _ _ _ _ _ _) as [[vs g2]|e|e|] eqn:E; try discriminate. cbn [bind] in S.
    destruct (suites _ _ _ _ _ _ _) as [[rest g3]|e|e|]; try discriminate. cbn [bind] in S. injection S as <- _. repeat eexists; eauto. now left.
  - destruct (Extern s0); [eauto|]. destruct (newMap _ _) as [m g1]. destruct (structure _ _ _ _ _ _ _) as [[vs g2]|e|e|] eqn:E; try discriminate. cbn [bind] in S.
    destruct (suites _ _ _ _ _ _ _) as [[rest g3]|e|e|] eqn:S2; try discriminate. cbn [bind] in S. injection S as <- _. destruct (IH _ _ _ S2 s I X) as (v & h & h' & A & B). exists v, h, h'. split; auto. now right.
Qed.

(** Whatever the size [N] of the array, the generator succeeds, and it makes 2^N vectors. *)
Theorem C89_exponential : forall grow ords os rn N, (forall k, goodOrders (ords k)) -> all_valid os -> zeroAgain (draws rn) -> (0 <= N)%Z ->
  exists n c u, GenerateFiles grow ords every os n (manyFiles N) rn = Ok c /\ In u c /\ stype u = "many" /\ List.length (svectors u) = 2 ^ Z.to_nat N.
Proof.
  intros grow ords os rn N HO V Z P. destruct (many_resolves os N V) as (r & R & S2 & SM).
  assert (G : forall k, (0 <= k < two63)%Z -> good_list (Constant r) [mkRange (ILit k) None]).
  { intros k K. constructor; [|constructor]. exists k, k. cbn. intuition. }
  assert (O : forall g, ~ list_overlaps (Constant r) [g]).
  { intros g (l1 & x & l2 & y & l3 & ? & ? & ? & ? & ? & E & _). destruct l1 as [|? [|? ?]]; inversion E. destruct l2; discriminate. }
  assert (T : IntType r (local "t") two = Ok (8%Z, None)) by reflexivity.
  destruct (files_succeed grow ords every os (manyFiles N) rn r (fun x => if String.eqb x "many" then 1 else 0) (fun x => String.eqb x "two") HO) as (n & c & H); auto.
  - intros f s [<-|[]] [<-|[<-|[]]] m I.
    + destruct I as [<-|[<-|[]]]; cbn; auto. split; [|cbn; intuition]. intros sz cst EI. rewrite T in EI. inversion EI; subst. split; [lia|].
      intros c [<-|[<-|[]]]; cbn [ucase_list is]; (split; [discriminate|apply G; unfold two63; lia]).
    + destruct I as [<-|[]]. cbn. intros s0 ES. unfold StructNonExtern in ES. rewrite S2 in ES. cbn in ES. injection ES as <-. cbn. lia.
  - intros f s [<-|[]] [<-|[<-|[]]] m I.
    + destruct I as [<-|[<-|[]]]; cbn [sucMember u8 sucType]; auto. split; [|cbn; repeat split; auto].
      split; [exists 8%Z, None; split; [exact T|lia]|]. intros c l [<-|[<-|[]]] E; inversion E; subst; (split; [discriminate|split; [apply G; unfold two63; lia|apply O]]).
    + destruct I as [<-|[]]. cbn [sucMember sucType sucElem]. split; [|exists N; reflexivity]. split; [exists two; unfold StructNonExtern; rewrite S2; reflexivity|reflexivity].
  - specialize (H n (le_n _)). pose proof H as G0. unfold GenerateFiles in G0. rewrite R in G0. cbn [bind] in G0.
    destruct (suites grow ords every r n _ _) as [[ss g]|e|e|] eqn:S; try discriminate. cbn [bind] in G0. injection G0 as G0.
    destruct (suites_each _ _ _ _ _ _ _ _ _ S (many N)) as (vs & h & h' & E & I); [cbn; auto|reflexivity|].
    exists n, c. eexists. split; [exact H|]. split; [rewrite <- G0; apply in_map_iff; eexists; split; [reflexivity|exact I]|]. split; [reflexivity|].
    cbn [svectors]. rewrite map_length. eapply (many_exact grow ords r N); eauto.
Qed.
Print Assumptions C89_exponential.
(** So no number bounds the vectors of all inputs with two structs and three members. *)
Theorem C89_constant_bound_refuted : forall b, exists N c u grow ords os n rn, (forall k, goodOrders (ords k)) /\ all_valid os /\
  GenerateFiles grow ords every os n (manyFiles N) rn = Ok c /\ In u c /\ b < List.length (svectors u).
Proof.
  intros b. destruct (C89_exponential goGrow (fun _ => uoX) osX (mkRng (fun _ => 0%Z) 0) (Z.of_nat b)) as (n & c & u & G & I & _ & L).
  - intros _. apply uoX_good.
  - exact id_orders_valid.
  - intros p. exists 0. reflexivity.
  - lia.
  - exists (Z.of_nat b), c, u, goGrow, (fun _ => uoX), osX, n, (mkRng (fun _ => 0%Z) 0). split; [intros _; apply uoX_good|]. split; [exact id_orders_valid|].
    split; auto. split; auto. rewrite L, Nat2Z.id. apply Nat.pow_gt_lin_r. lia.
Qed.
Print Assumptions C89_constant_bound_refuted.

(** [counts] holds of these structs with exactly these numbers, and a run meets them. *)
Example C89_case : counts (theRes (manyFiles 3)) (manyFiles 3) (fun x => if String.eqb x "many" then 8 else 2) /\
  exists c, GenerateFiles goGrow (fun _ => uoX) every osX 50 (manyFiles 3) (mkRng (fun _ => 0%Z) 0) = Ok c /\
    map (fun u => (stype u, List.length (svectors u))) c = [("two", 2); ("many", 8)].
Proof.
  split.
  - intros s _ (f & [<-|[]] & [<-|[<-|[]]]); (split; [vm_compute; lia|reflexivity]).
  - eexists. split; [vm_compute; reflexivity|reflexivity].
Qed.
