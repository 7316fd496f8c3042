(** Property C51: what trunnel writes does not depend on the order in which Go
    visits its maps. *)
From Coq Require Import ZArith String List Bool Permutation.
From Verif Require Import Base Ast IntervalsModel InspectModel InspectSpec InspectProofs GoLang GenModel GenExamples TvModel TvConstraints TvWitness
  PkgModel ResDet TvDet.
Import ListNotations.
Open Scope string_scope.
Open Scope list_scope.
Open Scope Z_scope.

(** The resolver: success or the same error, and the same answers. *)
Theorem C51_resolver : forall os os' fs, all_valid os -> all_valid os' ->
  sameOut same_answers (NewResolverFiles os fs) (NewResolverFiles os' fs).
Proof. exact resolver_same. Qed.
Print Assumptions C51_resolver.

(** The generated code. *)
Theorem C51_code : forall camel os os' fs, all_valid os -> all_valid os' -> Marshallers camel os fs = Marshallers camel os' fs.
Proof. exact marshallers_same. Qed.
Print Assumptions C51_code.

(** The vectors, from the same random source: the same bytes in the same order,
    with constraint maps that have the same entries; or the same failure. *)
Theorem C51_vectors : forall grow ords ords' sel os os' n fs rn, (forall k, goodOrders (ords k)) -> (forall k, goodOrders (ords' k)) ->
  all_valid os -> all_valid os' ->
  sameOut (Forall2 (fun u w => stype u = stype w /\
      Forall2 (fun v x => fst v = fst x /\ forall s k, cLookup (snd v) s k = cLookup (snd x) s k) (svectors u) (svectors w)))
    (GenerateFiles grow ords sel os n fs rn) (GenerateFiles grow ords' sel os' n fs rn).
Proof.
  intros grow ords ords' sel os os' n fs rn O O' V V'. pose proof (vectors_same grow ords ords' sel os os' n fs rn O O' V V') as S.
  destruct (GenerateFiles grow ords sel os n fs rn), (GenerateFiles grow ords' sel os' n fs rn); cbn in *; auto.
  induction S as [|u w c d (E & F) _ IH]; constructor; auto. split; auto. clear E.
  induction F as [|v x vs xs (E & _ & _ & _ & _ & L) _ IHf]; constructor; auto.
Qed.
Print Assumptions C51_vectors.

(** The result of [Package] and the file system it leaves behind, whatever file
    operations fail. *)
Theorem C51_output : forall fails render renderTests renderFuzz namer camel dir grow ords ords' sel os1 os1' os2 os2' n rn fs f,
  (forall k, goodOrders (ords k)) -> (forall k, goodOrders (ords' k)) ->
  all_valid os1 -> all_valid os1' -> all_valid os2 -> all_valid os2' ->
  Package fails render renderTests renderFuzz namer camel dir grow ords sel os1 os2 n rn fs f =
  Package fails render renderTests renderFuzz namer camel dir grow ords' sel os1' os2' n rn fs f.
Proof. exact package_same. Qed.
Print Assumptions C51_output.

(** Orders that differ: as written, and backwards. *)
Definition backwards : orders := mkOrd (@rev _) (@rev _) (@rev _).
Definition backwardsU : uorders := mkUO (@rev _) (fun _ => @rev _).
Example C51_case : all_valid osX /\ all_valid (fun _ => backwards) /\ goodOrders uoX /\ goodOrders backwardsU /\
  NewResolverFiles osX demo <> NewResolverFiles (fun _ => backwards) demo /\
  (exists p, Marshallers camelX (fun _ => backwards) demo = Ok p) /\
  cMerge uoX uoX [("b", [("x", 1)])] [("", [("n", 1); ("m", 2)])] <> cMerge backwardsU backwardsU [("b", [("x", 1)])] [("", [("n", 1); ("m", 2)])].
Proof.
  split; [apply (PackageSpec.pk_orders _ _ _ _ _ demo_package)|]. split; [intros k; split; [|split]; intros l; apply Permutation_sym, Permutation_rev|].
  split; [exact uoX_good|]. split; [split; intros; apply Permutation_sym, Permutation_rev|]. split; [vm_compute; discriminate|].
  split; [eexists; vm_compute; reflexivity|]. vm_compute. discriminate.
Qed.
