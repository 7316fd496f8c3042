(** C60, C61: what parsing costs. *)
From Coq Require Import ZArith String List Bool Lia.
From Coq Require Import ZifyBool ZifyNat.
From Verif Require Import Base Ast IntervalsModel InspectModel InspectSpec GoLang GenModel GenDecode GenCheck
  WireSpec GenTerm PackageSpec PackageProofs PackageFacts GenExamples GenWitness GoCost CostGrow CostSpec CostInv CostProg CostRecProg.
Import ListNotations.
Open Scope string_scope.
Open Scope list_scope.
Open Scope Z_scope.

(** The steps that x.Parse(data, contexts...) takes before the interpreter stops,
    and the steps it takes plus the cells of memory it asks for.  The second
    argument of the interpreter bounds its run: a bound that holds for each [n] is
    a bound on the whole run.  [g] says by how much append makes slices grow. *)
Definition steps (g : growth) camel (p : program) (n : nat) (s : struct) (fs0 : amap value) (data : bytes) (args : list value) : Z :=
  costMethod (mkAccount false g) p n (VStruct (camel (sname s)) fs0) (VBytes data) args.
Definition spent (g : growth) camel (p : program) (n : nat) (s : struct) (fs0 : amap value) (data : bytes) (args : list value) : Z :=
  costMethod (mkAccount true g) p n (VStruct (camel (sname s)) fs0) (VBytes data) args.
(** The price of a struct, from the text of the declarations; [priceWith] counts in
    room made at once for [most] elements. *)
Definition priceOf (r : resolver) (rank : string -> nat) (s : struct) : Z := price 0 r (S (rank (sname s))) (sname s).
Definition priceWith (most : Z) (r : resolver) (rank : string -> nat) (s : struct) : Z := price most r (S (rank (sname s))) (sname s).

(** C60. Whatever the input, parsing takes at most its price for every byte of the
    input, and once more, if no struct contains itself and the elements of arrays
    whose lengths are not constants take at least a byte. *)
Theorem C60_linear_partial : forall g camel os fs r p, package camel os fs r p ->
  forall rank, acyclic fs rank -> elementsTake fs r ->
  forall s fs0 data args, validCall camel fs r s fs0 data args ->
  forall n, steps g camel p n s fs0 data args <= priceOf r rank s * (blen data + 1).
Proof.
  intros g camel os fs r p PK rank A E s fs0 data args VC n.
  apply (parse_cost_all (mkAccount false g) camel os fs r p PK rank A E 0 ltac:(lia) false ltac:(discriminate) n s fs0 data args VC ltac:(discriminate)).
Qed.
Print Assumptions C60_linear_partial.

(** When it succeeds, it pays for the bytes it takes only: what follows them costs
    nothing. *)
Theorem C60_taken_partial : forall g camel os fs r p, package camel os fs r p ->
  forall rank, acyclic fs rank -> elementsTake fs r ->
  forall s fs0 data args, validCall camel fs r s fs0 data args ->
  forall n fs1 rest, runParse camel p n s fs0 data args = (VStruct (camel (sname s)) fs1, SRet (VBytes rest) VNil) ->
  steps g camel p n s fs0 data args <= priceOf r rank s * (blen data - blen rest + 1).
Proof.
  intros g camel os fs r p PK rank A E s fs0 data args VC n fs1 rest H.
  apply (parse_cost_taken (mkAccount false g) camel os fs r p PK rank A E 0 ltac:(lia) false ltac:(discriminate) n s fs0 data args fs1 rest VC ltac:(discriminate) H).
Qed.
Print Assumptions C60_taken_partial.

(** The same for NewT(data, contexts...). *)
Theorem C60_new_partial : forall g camel os fs r p, package camel os fs r p ->
  forall rank, acyclic fs rank -> elementsTake fs r ->
  forall s data args, validCall camel fs r s (blank camel (Constant r) s) data args ->
  forall n, costCtor (mkAccount false g) p n (camel (sname s)) (VBytes data) args <= (priceOf r rank s + 20) * (blen data + 1).
Proof.
  intros g camel os fs r p PK rank A E s data args VC n.
  apply (new_cost (mkAccount false g) camel os fs r p PK rank A E 0 ltac:(lia) false ltac:(discriminate) n s data args VC).
Qed.
Print Assumptions C60_new_partial.

(** [struct empty {}  struct many { u8 n; struct empty a[n]; }]: one byte makes the
    parser take thousands of steps.  Wider counts are as much worse. *)
Definition many : struct := mkStruct "many" [] (Some [u8 "n"; MField "a" (TVar (TStruct "empty") (Some (LRef (local "n"))))]).
Definition manyFiles := one [empty; many].
Definition manyRank (s : string) : nat := if String.eqb s "empty" then 0 else 1.
Lemma many_structs : forall s, defines manyFiles s -> s = empty \/ s = many.
Proof. intros s (_ & f & [<-|[]] & I). cbn in I. destruct I as [<-|[<-|[]]]; auto. Qed.
Lemma many_acyclic : acyclic manyFiles manyRank.
Proof.
  intros s D f t nm I J. apply many_structs in D as [->| ->]; cases I; cbn in J;
    repeat (destruct J as [<-|J]; [vm_compute; lia|]); try contradiction.
Qed.

Theorem C60_linear_refuted : forall g, exists fs r p rank s fs0 data n, package camelX osX fs r p /\ acyclic fs rank /\
  validCall camelX fs r s fs0 data [] /\ steps g camelX p n s fs0 data [] > priceOf r rank s * (blen data + 1).
Proof.
  intros g. exists manyFiles, (theRes manyFiles), (theProg manyFiles), manyRank, many, (blank camelX (Constant (theRes manyFiles)) many), [255], 300%nat.
  split; [apply package_of; vm_compute; reflexivity|]. split; [exact many_acyclic|]. split.
  - apply fresh_call; auto; try (vm_compute; reflexivity). { cbn; auto. } apply bytes_ok; vm_compute; reflexivity.
  - vm_compute. reflexivity.
Qed.
Print Assumptions C60_linear_refuted.

Lemma demo_acyclic : acyclic demo demoRank.
Proof.
  intros s D f t nm I J. apply demo_structs in D as [->|[->| ->]]; cases I; cbn in J;
    repeat (destruct J as [<-|J]; [vm_compute; lia|]); try contradiction.
Qed.
Ltac arrays I := cbn in I; repeat (destruct I as [I|I]; [try discriminate I; try (injection I as <- <- <-)|]); try contradiction.
Lemma demo_takes : elementsTake demo demoR.
Proof.
  intros s f b l D I. apply demo_structs in D as [->|[->| ->]]; arrays I; try (constructor; reflexivity); try exact demo_point_eats.
Qed.
(** The package [demo] meets the conditions; the prices of its structs, and what
    parsing a message really takes. *)
Example C60_case : acyclic demo demoRank /\ elementsTake demo demoR /\
  priceOf demoR demoRank point = 99 /\ 0 < priceOf demoR demoRank msg < 2000 /\
  0 < steps goGrowth camelX demoP 9 msg (blank camelX (Constant demoR) msg) msgBytes [optsV 2] < 1000.
Proof. split; [exact demo_acyclic|]. split; [exact demo_takes|]. vm_compute. repeat split; reflexivity. Qed.

(** Elements that append moves, and with memory, when there are 0, 1, ..., 8 elements. *)
Example C60_append_case : map (moving (mkAccount false goGrowth)) [0; 1; 2; 3; 4; 5; 6; 7; 8] = [0; 1; 2; 0; 4; 0; 0; 0; 8] /\
  map (moving (mkAccount true goGrowth)) [0; 1; 2; 3; 4; 5; 6; 7; 8] = [1; 3; 6; 0; 12; 0; 0; 0; 24].
Proof. vm_compute. auto. Qed.

Lemma none_below : forall fs r, noCounted fs -> countsBelow fs r 0.
Proof. intros fs r N s f b x D I. destruct (N s f b x D I). Qed.
(** C61. If moreover no array has its length in another field or in a context, the
    memory it asks for is bounded in the same way. *)
Theorem C61_memory_partial : forall g camel os fs r p, package camel os fs r p ->
  forall rank, acyclic fs rank -> elementsTake fs r -> noCounted fs ->
  forall s fs0 data args, validCall camel fs r s fs0 data args ->
  forall n, spent g camel p n s fs0 data args <= priceOf r rank s * (blen data + 1).
Proof.
  intros g camel os fs r p PK rank A E NC s fs0 data args VC n.
  apply (parse_cost_all (mkAccount true g) camel os fs r p PK rank A E 0 ltac:(lia) false (fun _ => none_below fs r NC) n s fs0 data args VC ltac:(discriminate)).
Qed.
Print Assumptions C61_memory_partial.

Theorem C61_new_partial : forall g camel os fs r p, package camel os fs r p ->
  forall rank, acyclic fs rank -> elementsTake fs r -> noCounted fs ->
  forall s data args, validCall camel fs r s (blank camel (Constant r) s) data args ->
  forall n, costCtor (mkAccount true g) p n (camel (sname s)) (VBytes data) args <= (priceOf r rank s + 20) * (blen data + 1).
Proof.
  intros g camel os fs r p PK rank A E NC s data args VC n.
  apply (new_cost (mkAccount true g) camel os fs r p PK rank A E 0 ltac:(lia) false (fun _ => none_below fs r NC) n s data args VC).
Qed.
Print Assumptions C61_new_partial.

(** [struct counted { u16 n; u8 a[n]; }]: an input of two bytes makes the parser
    allocate 65535 elements before it finds that there is no data for them. *)
Definition counted : struct := mkStruct "counted" [] (Some [MField "n" (TInt 16 None); MField "a" (TVar (TInt 8 None) (Some (LRef (local "n"))))]).
Definition countedFiles := one [counted].
Lemma counted_call : validCall camelX countedFiles (theRes countedFiles) counted (blank camelX (Constant (theRes countedFiles)) counted) [255; 255] [].
Proof. apply fresh_call; auto; try (vm_compute; reflexivity). { cbn; auto. } apply bytes_ok; vm_compute; reflexivity. Qed.

Theorem C61_memory_refuted : forall g, exists fs r p rank s fs0 data n, package camelX osX fs r p /\ acyclic fs rank /\ elementsTake fs r /\
  validCall camelX fs r s fs0 data [] /\ fails camelX p s fs0 data [] "data too short" /\
  spent g camelX p n s fs0 data [] - steps g camelX p n s fs0 data [] = 65535 /\
  spent g camelX p n s fs0 data [] > priceOf r rank s * (blen data + 1).
Proof.
  intros g. exists countedFiles, (theRes countedFiles), (theProg countedFiles), (fun _ => 0%nat), counted, (blank camelX (Constant (theRes countedFiles)) counted), [255; 255], 9%nat.
  split; [apply package_of; vm_compute; reflexivity|]. split; [|split; [|split; [exact counted_call|split]]].
  - intros s (_ & f & [<-|[]] & I) f0 t nm J K. cbn in I. destruct I as [<-|[]]. cases J; destruct K.
  - intros s f b l (_ & f' & [<-|[]] & I) J. cbn in I. destruct I as [<-|[]]. arrays J. constructor. reflexivity.
  - apply (fails_dec camelX osX countedFiles _ _ (package_of countedFiles ltac:(vm_compute; reflexivity)) _ _ _ _ counted_call).
    exists 9%nat. vm_compute. reflexivity.
  - vm_compute. split; reflexivity.
Qed.
Print Assumptions C61_memory_refuted.

(** C61 with arrays whose lengths are in fields or contexts: the width of the field
    bounds the room that is made at once, and the bound counts it in.  The input
    still pays for all but this: a call that takes no byte makes room at most once
    for each array of the declaration. *)
Theorem C61_counted_partial : forall g camel os fs r p, package camel os fs r p ->
  forall rank, acyclic fs rank -> elementsTake fs r -> forall most, 0 <= most -> countsBelow fs r most ->
  forall s fs0 data args, validCall camel fs r s fs0 data args ->
  forall n, spent g camel p n s fs0 data args <= priceWith most r rank s * (blen data + 1).
Proof.
  intros g camel os fs r p PK rank A E most M CB s fs0 data args VC n.
  apply (parse_cost_all (mkAccount true g) camel os fs r p PK rank A E most M false (fun _ => CB) n s fs0 data args VC ltac:(discriminate)).
Qed.
Print Assumptions C61_counted_partial.

Theorem C61_counted_new_partial : forall g camel os fs r p, package camel os fs r p ->
  forall rank, acyclic fs rank -> elementsTake fs r -> forall most, 0 <= most -> countsBelow fs r most ->
  forall s data args, validCall camel fs r s (blank camel (Constant r) s) data args ->
  forall n, costCtor (mkAccount true g) p n (camel (sname s)) (VBytes data) args <= (priceWith most r rank s + 20) * (blen data + 1).
Proof.
  intros g camel os fs r p PK rank A E most M CB s data args VC n.
  apply (new_cost (mkAccount true g) camel os fs r p PK rank A E most M false (fun _ => CB) n s data args VC).
Qed.
Print Assumptions C61_counted_new_partial.

(** When it succeeds, it pays for the bytes it takes only. *)
Theorem C61_counted_taken_partial : forall g camel os fs r p, package camel os fs r p ->
  forall rank, acyclic fs rank -> elementsTake fs r -> forall most, 0 <= most -> countsBelow fs r most ->
  forall s fs0 data args, validCall camel fs r s fs0 data args ->
  forall n fs1 rest, runParse camel p n s fs0 data args = (VStruct (camel (sname s)) fs1, SRet (VBytes rest) VNil) ->
  spent g camel p n s fs0 data args <= priceWith most r rank s * (blen data - blen rest + 1).
Proof.
  intros g camel os fs r p PK rank A E most M CB s fs0 data args VC n fs1 rest H.
  apply (parse_cost_taken (mkAccount true g) camel os fs r p PK rank A E most M false (fun _ => CB) n s fs0 data args fs1 rest VC ltac:(discriminate) H).
Qed.
Print Assumptions C61_counted_taken_partial.

(** The struct [counted] meets the conditions with 65536 elements, and its input of
    two bytes shows that the term is needed. *)
Example C61_counted_case : countsBelow countedFiles (theRes countedFiles) 65536 /\
  priceWith 65536 (theRes countedFiles) (fun _ => 0%nat) counted = 65536 + priceOf (theRes countedFiles) (fun _ => 0%nat) counted /\
  65536 < spent goGrowth camelX (theProg countedFiles) 9 counted (blank camelX (Constant (theRes countedFiles)) counted) [255; 255] [] <
    priceWith 65536 (theRes countedFiles) (fun _ => 0%nat) counted.
Proof.
  split.
  - intros s f b x (_ & f' & [<-|[]] & I) J. cbn in I. destruct I as [<-|[]].
    cbn in J. destruct J as [J|[J|[]]]; [discriminate|injection J as <- <- <-]. split.
    + intros _ sz l K. cbn in K. destruct K as [K|[K|[]]]; [injection K as <- <-; lia|discriminate].
    + intros N. destruct N. reflexivity.
  - vm_compute. repeat split; reflexivity.
Qed.

(** A package that meets the conditions of C61. *)
Definition runs : struct := mkStruct "runs" []
  (Some [u8 "kind"; MUnion "body" (local "kind") None [UCase (is 1) [MField "pts" (TVar (TStruct "point") None)]; UCase None [MField "name" TNul]]]).
Definition runsFiles := [mkFile [mkConst "LIMIT" 3] [] [point; runs] []].
Lemma runs_structs : forall s, defines runsFiles s -> s = point \/ s = runs.
Proof. intros s (_ & f & [<-|[]] & I). cbn in I. destruct I as [<-|[<-|[]]]; auto. Qed.
Example C61_case : isPackage runsFiles = true /\ acyclic runsFiles demoRank /\ elementsTake runsFiles (theRes runsFiles) /\ noCounted runsFiles /\
  0 < spent goGrowth camelX (theProg runsFiles) 9 runs (blank camelX (Constant (theRes runsFiles)) runs) [1; 5; 2; 6; 3] [] < 500.
Proof.
  split; [vm_compute; reflexivity|]. split; [|split; [|split]].
  - intros s D f t nm I J. apply runs_structs in D as [->| ->]; cases I; cbn in J;
      repeat (destruct J as [<-|J]; [vm_compute; lia|]); try contradiction.
  - intros s f b l D I. apply runs_structs in D as [->| ->]; arrays I.
    apply Eats_struct with (s := point); [vm_compute; reflexivity|]. constructor. constructor. constructor. reflexivity.
  - intros s f b x D I. apply runs_structs in D as [->| ->]; cbn in I; repeat (destruct I as [I|I]; [discriminate I|]); contradiction.
  - vm_compute. split; reflexivity.
Qed.

(** C60, C61 for structs that may contain themselves.  [rank] shows that no chain of
    nested structs goes on for ever without taking a byte ([progress], as in C14);
    the prices are those of the whole package, from the text of the declarations. *)
Theorem C60_recursive_partial : forall g camel os fs r p, package camel os fs r p ->
  forall rank, progress fs r rank -> elementsTake fs r ->
  forall s fs0 data args, validCall camel fs r s fs0 data args ->
  forall n, steps g camel p n s fs0 data args <= perCall 0 fs r rank + perByte 0 fs r rank * blen data.
Proof.
  intros g camel os fs r p PK rank A E s fs0 data args VC n.
  apply (recursive_cost_all (mkAccount false g) camel os fs r p PK rank A E 0 ltac:(lia) false ltac:(discriminate) n s fs0 data args VC ltac:(discriminate)).
Qed.
Print Assumptions C60_recursive_partial.

Theorem C60_recursive_taken_partial : forall g camel os fs r p, package camel os fs r p ->
  forall rank, progress fs r rank -> elementsTake fs r ->
  forall s fs0 data args, validCall camel fs r s fs0 data args ->
  forall n fs1 rest, runParse camel p n s fs0 data args = (VStruct (camel (sname s)) fs1, SRet (VBytes rest) VNil) ->
  steps g camel p n s fs0 data args <= perCall 0 fs r rank + perByte 0 fs r rank * (blen data - blen rest).
Proof.
  intros g camel os fs r p PK rank A E s fs0 data args VC n fs1 rest H.
  apply (recursive_cost_taken (mkAccount false g) camel os fs r p PK rank A E 0 ltac:(lia) false ltac:(discriminate) n s fs0 data args fs1 rest VC ltac:(discriminate) H).
Qed.
Print Assumptions C60_recursive_taken_partial.

Theorem C60_recursive_new_partial : forall g camel os fs r p, package camel os fs r p ->
  forall rank, progress fs r rank -> elementsTake fs r ->
  forall s data args, validCall camel fs r s (blank camel (Constant r) s) data args ->
  forall n, costCtor (mkAccount false g) p n (camel (sname s)) (VBytes data) args <= perCall 0 fs r rank + 20 + perByte 0 fs r rank * blen data.
Proof.
  intros g camel os fs r p PK rank A E s data args VC n.
  apply (recursive_cost_new (mkAccount false g) camel os fs r p PK rank A E 0 ltac:(lia) false ltac:(discriminate) n s data args VC).
Qed.
Print Assumptions C60_recursive_new_partial.

Theorem C61_recursive_partial : forall g camel os fs r p, package camel os fs r p ->
  forall rank, progress fs r rank -> elementsTake fs r -> noCounted fs ->
  forall s fs0 data args, validCall camel fs r s fs0 data args ->
  forall n, spent g camel p n s fs0 data args <= perCall 0 fs r rank + perByte 0 fs r rank * blen data.
Proof.
  intros g camel os fs r p PK rank A E NC s fs0 data args VC n.
  apply (recursive_cost_all (mkAccount true g) camel os fs r p PK rank A E 0 ltac:(lia) false (fun _ => none_below fs r NC) n s fs0 data args VC ltac:(discriminate)).
Qed.
Print Assumptions C61_recursive_partial.

Theorem C61_recursive_new_partial : forall g camel os fs r p, package camel os fs r p ->
  forall rank, progress fs r rank -> elementsTake fs r -> noCounted fs ->
  forall s data args, validCall camel fs r s (blank camel (Constant r) s) data args ->
  forall n, costCtor (mkAccount true g) p n (camel (sname s)) (VBytes data) args <= perCall 0 fs r rank + 20 + perByte 0 fs r rank * blen data.
Proof.
  intros g camel os fs r p PK rank A E NC s data args VC n.
  apply (recursive_cost_new (mkAccount true g) camel os fs r p PK rank A E 0 ltac:(lia) false (fun _ => none_below fs r NC) n s data args VC).
Qed.
Print Assumptions C61_recursive_new_partial.

Theorem C61_counted_recursive_partial : forall g camel os fs r p, package camel os fs r p ->
  forall rank, progress fs r rank -> elementsTake fs r -> forall most, 0 <= most -> countsBelow fs r most ->
  forall s fs0 data args, validCall camel fs r s fs0 data args ->
  forall n, spent g camel p n s fs0 data args <= perCall most fs r rank + perByte most fs r rank * blen data.
Proof.
  intros g camel os fs r p PK rank A E most M CB s fs0 data args VC n.
  apply (recursive_cost_all (mkAccount true g) camel os fs r p PK rank A E most M false (fun _ => CB) n s fs0 data args VC ltac:(discriminate)).
Qed.
Print Assumptions C61_counted_recursive_partial.

Theorem C61_counted_recursive_new_partial : forall g camel os fs r p, package camel os fs r p ->
  forall rank, progress fs r rank -> elementsTake fs r -> forall most, 0 <= most -> countsBelow fs r most ->
  forall s data args, validCall camel fs r s (blank camel (Constant r) s) data args ->
  forall n, costCtor (mkAccount true g) p n (camel (sname s)) (VBytes data) args <= perCall most fs r rank + 20 + perByte most fs r rank * blen data.
Proof.
  intros g camel os fs r p PK rank A E most M CB s data args VC n.
  apply (recursive_cost_new (mkAccount true g) camel os fs r p PK rank A E most M false (fun _ => CB) n s data args VC).
Qed.
Print Assumptions C61_counted_recursive_new_partial.

(** [struct twig { u8 n; struct twig kids[n]; }] contains itself in an array with a
    count: the conditions, and what parsing [2 1 0 0] takes. *)
Definition twig : struct := mkStruct "twig" [] (Some [u8 "n"; MField "kids" (TVar (TStruct "twig") (Some (LRef (local "n"))))]).
Definition twigFiles := one [twig].
Lemma twig_eats : eats (Constant (theRes twigFiles)) (Struct (theRes twigFiles)) (TStruct "twig").
Proof. apply Eats_struct with (s := twig); [vm_compute; reflexivity|]. constructor. constructor. constructor. reflexivity. Qed.
Example C61_recursive_case : isPackage twigFiles = true /\ progress twigFiles (theRes twigFiles) (fun _ => 0%nat) /\
  elementsTake twigFiles (theRes twigFiles) /\ countsBelow twigFiles (theRes twigFiles) 256 /\
  snd (runParse camelX (theProg twigFiles) 9 twig (blank camelX (Constant (theRes twigFiles)) twig) [2; 1; 0; 0] []) = SRet (VBytes []) VNil /\
  0 < spent goGrowth camelX (theProg twigFiles) 9 twig (blank camelX (Constant (theRes twigFiles)) twig) [2; 1; 0; 0] [] <
    perCall 256 twigFiles (theRes twigFiles) (fun _ => 0%nat) + perByte 256 twigFiles (theRes twigFiles) (fun _ => 0%nat) * 4.
Proof.
  assert (TS : forall s, defines twigFiles s -> s = twig).
  { intros s (_ & f & [<-|[]] & I). cbn in I. destruct I as [<-|[]]; auto. }
  split; [vm_compute; reflexivity|]. split; [|split; [|split]].
  - intros s D. apply TS in D as ->. split.
    + intros nm t I. cases I; cbn; auto using twig_eats.
    + apply G_field; [exact Logic.I|]. left. constructor. reflexivity.
  - intros s f b l D I. apply TS in D as ->; arrays I. exact twig_eats.
  - intros s f b x D J. apply TS in D as ->. cbn in J. destruct J as [J|[J|[]]]; [discriminate|injection J as <- <- <-]. split.
    + intros _ sz l K. cbn in K. destruct K as [K|[K|[]]]; [injection K as <- <-; lia|discriminate].
    + intros N. destruct N. reflexivity.
  - vm_compute. repeat split; reflexivity.
Qed.

(** Without [progress] there is no bound: parsing [struct node { struct node next; }]
    takes ever more steps on any input. *)
Definition nodeF : func := Eval vm_compute in match pmethods (theProg nodeFiles) with (_, f) :: _ => f | [] => mkFunc "" [] [] end.
Lemma node_step : forall g n data, 1 + costMethod (mkAccount false g) (theProg nodeFiles) n (VStruct "Node" [("Next", VNil)]) (VBytes data) []
  <= costMethod (mkAccount false g) (theProg nodeFiles) (S n) (VStruct "Node" [("Next", VNil)]) (VBytes data) [].
Proof.
  intros g n data.
  assert (M : pmethods (theProg nodeFiles) = [("Node", nodeF)]) by (vm_compute; reflexivity).
  assert (T : ptypes (theProg nodeFiles) = [("Node", [("Next", GPtr "Node")])]) by (vm_compute; reflexivity).
  set (p := theProg nodeFiles) in *. clearbody p.
  change (costMethod (mkAccount false g) p (S n) (VStruct "Node" [("Next", VNil)]) (VBytes data) []) with
    (match alookup "Node" (pmethods p) with None => 0 | Some f =>
      costs (mkAccount false g) (ptypes p) (callMethod p n) (costMethod (mkAccount false g) p n) n (fbody f)
                ((frecv f, (VStruct "Node" [("Next", VNil)])) :: ("data", VBytes data) :: combine (fparams f) []) end).
  rewrite M, T. generalize (callMethod p n), (costMethod (mkAccount false g) p n). intros call cc. clear p M T. cbn -[Z.add].
  destruct (call _ _ _) as [v sg]. cbn -[Z.add]. destruct sg as [ |a b| | ]; unfold work; cbn -[Z.add]; try lia.
  destruct b; cbn -[Z.add]; lia.
Qed.
Theorem C60_endless_refuted : forall g, exists fs r p s fs0, package camelX osX fs r p /\ elementsTake fs r /\
  forall data, goBytes data -> validCall camelX fs r s fs0 data [] /\
  forall bound, exists n, steps g camelX p n s fs0 data [] > bound.
Proof.
  intros g. exists nodeFiles, (theRes nodeFiles), (theProg nodeFiles), node, (blank camelX (Constant (theRes nodeFiles)) node).
  split; [apply package_of; vm_compute; reflexivity|]. split.
  - intros s f b l (_ & f' & [<-|[]] & I) J. cbn in I. destruct I as [<-|[]]. arrays J.
  - intros data GB. split.
    + apply fresh_call; auto; try (vm_compute; reflexivity). now left.
    + assert (N : forall n, Z.of_nat n <= steps g camelX (theProg nodeFiles) n node (blank camelX (Constant (theRes nodeFiles)) node) data []).
      { unfold steps. change (blank camelX (Constant (theRes nodeFiles)) node) with [("Next", VNil)]. change (camelX (sname node)) with "Node".
        induction n as [|n IH]; [|pose proof (node_step g n data); lia].
        cbn [costMethod]. destruct (alookup _ _); cbn; lia. }
      intros bound. exists (Z.to_nat (Z.abs bound + 1)). specialize (N (Z.to_nat (Z.abs bound + 1))). lia.
Qed.
Print Assumptions C60_endless_refuted.

(** [struct tree { u8 kind; union body[kind] { 1: struct tree left; struct tree right;
    2: struct tree kids[3]; 3: struct tree rest[]; default: u8 leaf; } }] *)
Definition tree : struct := mkStruct "tree" [] (Some [u8 "kind"; MUnion "body" (local "kind") None [
  UCase (is 1) [MField "left" (TStruct "tree"); MField "right" (TStruct "tree")];
  UCase (is 2) [MField "kids" (TFixed (TStruct "tree") (ILit 3))];
  UCase (is 3) [MField "rest" (TVar (TStruct "tree") None)];
  UCase None [u8 "leaf"]]]).
Definition treeFiles := one [tree].
Lemma tree_structs : forall s, defines treeFiles s -> s = tree.
Proof. intros s (_ & f & [<-|[]] & I). cbn in I. destruct I as [<-|[]]; auto. Qed.
Lemma tree_eats : eats (Constant (theRes treeFiles)) (Struct (theRes treeFiles)) (TStruct "tree").
Proof. apply Eats_struct with (s := tree); [vm_compute; reflexivity|]. constructor. constructor. constructor. reflexivity. Qed.
(** It meets the conditions; the bounds; and what parsing [1 2 0 5 0 6 0 7 3 0 8 9 0]
    takes. *)
Example C60_recursive_case : isPackage treeFiles = true /\ progress treeFiles (theRes treeFiles) (fun _ => 0%nat) /\
  elementsTake treeFiles (theRes treeFiles) /\ noCounted treeFiles /\
  0 < perCall 0 treeFiles (theRes treeFiles) (fun _ => 0%nat) < 1000 /\ 0 < perByte 0 treeFiles (theRes treeFiles) (fun _ => 0%nat) < 10000 /\
  snd (runParse camelX (theProg treeFiles) 9 tree (blank camelX (Constant (theRes treeFiles)) tree) [1; 2; 0; 5; 0; 6; 0; 7; 3; 0; 8; 9; 0] []) = SRet (VBytes []) VNil /\
  0 < spent goGrowth camelX (theProg treeFiles) 9 tree (blank camelX (Constant (theRes treeFiles)) tree) [1; 2; 0; 5; 0; 6; 0; 7; 3; 0; 8; 9; 0] [] < 1500.
Proof.
  split; [vm_compute; reflexivity|]. split; [|split; [|split]].
  - intros s D. apply tree_structs in D as ->. split.
    + intros nm t I. cases I; cbn; auto. exact tree_eats.
    + apply G_field; [exact Logic.I|]. left. constructor. reflexivity.
  - intros s f b l D I. apply tree_structs in D as ->; arrays I. exact tree_eats.
  - intros s f b x D I. apply tree_structs in D as ->; cbn in I; repeat (destruct I as [I|I]; [discriminate I|]); contradiction.
  - vm_compute. repeat split; reflexivity.
Qed.

(** C61 where constraints bound the lengths, however wide the fields: for structs
    whose integers are zero or allowed, such as fresh ones and the results of
    earlier calls. *)
Theorem C61_constrained_partial : forall g camel os fs r p, package camel os fs r p ->
  forall rank, progress fs r rank -> elementsTake fs r -> forall most, 0 <= most -> countsWithin fs r most ->
  forall s fs0 data args, validCall camel fs r s fs0 data args -> settled camel r s fs0 ->
  forall n, spent g camel p n s fs0 data args <= perCall most fs r rank + perByte most fs r rank * blen data.
Proof.
  intros g camel os fs r p PK rank A E most M CB s fs0 data args VC ST n.
  apply (recursive_cost_all (mkAccount true g) camel os fs r p PK rank A E most M true (fun _ => CB) n s fs0 data args VC (fun _ => ST)).
Qed.
Print Assumptions C61_constrained_partial.

Theorem C61_constrained_taken_partial : forall g camel os fs r p, package camel os fs r p ->
  forall rank, progress fs r rank -> elementsTake fs r -> forall most, 0 <= most -> countsWithin fs r most ->
  forall s fs0 data args, validCall camel fs r s fs0 data args -> settled camel r s fs0 ->
  forall n fs1 rest, runParse camel p n s fs0 data args = (VStruct (camel (sname s)) fs1, SRet (VBytes rest) VNil) ->
  spent g camel p n s fs0 data args <= perCall most fs r rank + perByte most fs r rank * (blen data - blen rest) /\
  settled camel r s fs1.
Proof.
  intros g camel os fs r p PK rank A E most M CB s fs0 data args VC ST n fs1 rest H. split.
  - apply (recursive_cost_taken (mkAccount true g) camel os fs r p PK rank A E most M true (fun _ => CB) n s fs0 data args fs1 rest VC (fun _ => ST) H).
  - apply (parse_settled camel os fs r p PK s fs0 data args n fs1 rest VC ST H).
Qed.
Print Assumptions C61_constrained_taken_partial.

Theorem C61_constrained_new_partial : forall g camel os fs r p, package camel os fs r p ->
  forall rank, progress fs r rank -> elementsTake fs r -> forall most, 0 <= most -> countsWithin fs r most ->
  forall s data args, validCall camel fs r s (blank camel (Constant r) s) data args ->
  settled camel r s (blank camel (Constant r) s) /\
  forall n, costCtor (mkAccount true g) p n (camel (sname s)) (VBytes data) args <= perCall most fs r rank + 20 + perByte most fs r rank * blen data.
Proof.
  intros g camel os fs r p PK rank A E most M CB s data args VC. split; [apply blank_settled|]. intros n.
  apply (recursive_cost_new (mkAccount true g) camel os fs r p PK rank A E most M true (fun _ => CB) n s data args VC).
Qed.
Print Assumptions C61_constrained_new_partial.

(** [struct heap { u64 n IN [0..9]; struct heap kids[n]; }]: the conditions hold for
    nine elements and no fewer; and what parsing a heap takes. *)
Definition heapS : struct := mkStruct "heap" [] (Some [MField "n" (TInt 64 (Some [mkRange (ILit 0) (Some (ILit 9))]));
  MField "kids" (TVar (TStruct "heap") (Some (LRef (local "n"))))]).
Definition heapFiles := one [heapS].
Lemma heap_eats : eats (Constant (theRes heapFiles)) (Struct (theRes heapFiles)) (TStruct "heap").
Proof. apply Eats_struct with (s := heapS); [vm_compute; reflexivity|]. constructor. constructor. constructor. reflexivity. Qed.
Example C61_constrained_case : isPackage heapFiles = true /\ progress heapFiles (theRes heapFiles) (fun _ => 0%nat) /\
  elementsTake heapFiles (theRes heapFiles) /\
  (forall most, countsWithin heapFiles (theRes heapFiles) most <-> 9 <= most) /\ ~ countsBelow heapFiles (theRes heapFiles) (2 ^ 63) /\
  snd (runParse camelX (theProg heapFiles) 9 heapS (blank camelX (Constant (theRes heapFiles)) heapS) [0;0;0;0;0;0;0;1; 0;0;0;0;0;0;0;0] []) = SRet (VBytes []) VNil /\
  0 < spent goGrowth camelX (theProg heapFiles) 9 heapS (blank camelX (Constant (theRes heapFiles)) heapS) [0;0;0;0;0;0;0;1; 0;0;0;0;0;0;0;0] [] < 500.
Proof.
  assert (TS : forall s, defines heapFiles s -> s = heapS).
  { intros s (_ & f & [<-|[]] & I). cbn in I. destruct I as [<-|[]]; auto. }
  assert (D : defines heapFiles heapS) by (split; [reflexivity|]; eexists; split; [now left|now left]).
  assert (J : In ("kids", TVar (TStruct "heap") (Some (LRef (local "n")))) (flat_map allFields (members_of heapS))) by (cbn; auto).
  assert (JN : In ("n", TInt 64 (Some [mkRange (ILit 0) (Some (ILit 9))])) (flat_map allFields (members_of heapS))) by (cbn; auto).
  split; [vm_compute; reflexivity|]. split; [|split; [|split; [|split]]].
  - intros s D'. apply TS in D' as ->. split.
    + intros nm t I. cases I; cbn; auto using heap_eats.
    + apply G_field; [exact Logic.I|]. left. constructor. reflexivity.
  - intros s f b l D' I. apply TS in D' as ->; arrays I. exact heap_eats.
  - intros most. split.
    + intros H. destruct (H heapS _ _ _ D J) as [B _]. destruct (B eq_refl _ _ JN) as [B'|(l' & E & B')].
      * assert (9 < 2 ^ 64) by reflexivity. lia.
      * injection E as <-. apply B'. exists (mkRange (ILit 0) (Some (ILit 9))), 0, 9. split; [now left|]. split; [reflexivity|lia].
    + intros H s f b x D' I. apply TS in D' as ->. arrays I. split; [|intros N; destruct N; reflexivity].
      intros _ sz l K. cbn in K. destruct K as [K|[K|[]]]; [injection K as <- <-|discriminate].
      right. eexists. split; [reflexivity|]. intros z (rg & a & c & [<-|[]] & E & L). cbn in E. injection E as <- <-. lia.
  - intros H. destruct (H heapS _ _ _ D J) as [B _]. specialize (B eq_refl _ _ JN). revert B. vm_compute. intros B. now apply B.
  - vm_compute. repeat split; reflexivity.
Qed.
