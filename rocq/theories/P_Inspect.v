(** Properties C06-C11: the resolver and union branches (package inspect). *)
From Coq Require Import ZArith String List Bool Permutation.
From Verif Require Import Base Ast IntervalsModel IntervalsSpec InspectModel InspectSpec InspectProofs BranchProofs Guarded.
Import ListNotations.
Open Scope string_scope.
Open Scope list_scope.
Open Scope Z_scope.

(** C06. *)
Theorem C06_addfile_order_independent : forall o o' r f, valid_orders o -> valid_orders o' ->
  snd (AddFile o r f) = snd (AddFile o' r f) /\
  (snd (AddFile o r f) = Ok tt -> same_answers (fst (AddFile o r f)) (fst (AddFile o' r f))).
Proof. exact addfile_order_independent. Qed.
Print Assumptions C06_addfile_order_independent.

Definition rev_orders : orders := mkOrd (@rev _) (@rev _) (@rev _).
Example C06_case : valid_orders id_orders /\ valid_orders rev_orders /\
  (let f := mkFile [mkConst "A" 1; mkConst "B" 2] [] [mkStruct "a" [] (Some []); mkStruct "b" [] None] [] in
   snd (AddFile rev_orders NewResolverEmpty f) = Ok tt /\
   fst (AddFile rev_orders NewResolverEmpty f) <> fst (AddFile id_orders NewResolverEmpty f)).
Proof.
  split; [apply (id_orders_valid O)|]. split.
  - split; [|split]; intros; apply Permutation_sym, Permutation_rev.
  - split; [reflexivity|discriminate].
Qed.

(** C07. *)
Theorem C07_definitions_never_change : forall cs r,
  (forall n s, Struct r n = Some s -> Extern s = false -> Struct (history r cs) n = Some s) /\
  (forall n x, Context r n = Some x -> Context (history r cs) n = Some x) /\
  (forall n x, Constant r n = Some x -> Constant (history r cs) n = Some x).
Proof. exact history_keeps. Qed.
Print Assumptions C07_definitions_never_change.

Example C07_case :
  let r := history NewResolverEmpty [CallSetConstant "A" 1; CallAddStruct (mkStruct "a" [] (Some []))] in
  Constant (history r [CallSetConstant "A" 2; CallAddFile id_orders file_def]) "A" = Some 1 /\
  Struct (history r [CallAddFile id_orders file_def]) "a" = Some (mkStruct "a" [] (Some [])) /\
  snd (do_call r (CallAddFile id_orders file_def)) = Err "cannot override non-extern struct".
Proof. repeat split. Qed.

(** C08: exactly which lists of files are accepted ... *)
Theorem C08_accepted_iff : forall os fs, all_valid os ->
  ((exists r, NewResolverFiles os fs = Ok r) <-> Forall self_ok fs /\ ForallOrdPairs may_follow fs).
Proof. exact resolver_accepts_iff. Qed.
Print Assumptions C08_accepted_iff.

(** ... if two orders are accepted, the answers agree ... *)
Theorem C08_reordered_answers_agree : forall os os' fs fs' r r', all_valid os -> all_valid os' ->
  Permutation fs fs' -> NewResolverFiles os fs = Ok r -> NewResolverFiles os' fs' = Ok r' -> agree r r'.
Proof. exact reordered_answers_agree. Qed.
Print Assumptions C08_reordered_answers_agree.

(** ... and every order is accepted provided no struct is extern in one place
    and defined in another. *)
Theorem C08_reorder_accepted_partial : forall os os' fs fs' r, all_valid os -> all_valid os' -> no_mix fs ->
  Permutation fs fs' -> NewResolverFiles os fs = Ok r ->
  exists r', NewResolverFiles os' fs' = Ok r' /\ agree r r'.
Proof. exact reorder_accepted. Qed.
Print Assumptions C08_reorder_accepted_partial.

(** Without that proviso C08 is false. *)
Theorem C08_reorder_accepted_refuted : exists fs fs' r os, all_valid os /\ Permutation fs fs' /\
  NewResolverFiles os fs = Ok r /\
  NewResolverFiles os fs' = Err "cannot override non-extern struct".
Proof. exact order_refuted. Qed.
Print Assumptions C08_reorder_accepted_refuted.

Example C08_case : no_mix [file_def; mkFile [mkConst "A" 1] [mkCtx "c" []] [] []] /\
  exists r, NewResolverFiles (fun _ => id_orders) [file_def; mkFile [mkConst "A" 1] [mkCtx "c" []] [] []] = Ok r.
Proof.
  split; [|eexists; reflexivity].
  intros f g s t [<-|[<-|[]]] [<-|[<-|[]]]; cbn; intros Hs Ht; try tauto.
  destruct Hs as [<-|[]], Ht as [<-|[]]. reflexivity.
Qed.

(** C09 is false: the struct stays although the call failed. *)
Theorem C09_addfile_atomic_refuted : exists o r f n s e, valid_orders o /\
  snd (AddFile o r f) = Err e /\ Struct r n = None /\ Struct (fst (AddFile o r f)) n = Some s.
Proof. exact addfile_atomic_refuted. Qed.
Print Assumptions C09_addfile_atomic_refuted.

(** What remains: whether it fails or not, all that a call changes is that some of the
    file's own declarations are added, none of them in place of another one, other
    than a struct declared extern.  A file that repeats a struct name has no effect. *)
Theorem C09_failed_addfile_partial : forall o r f, valid_orders o ->
  let r' := fst (AddFile o r f) in
  (forall n, Struct r' n = Struct r n \/
     exists s, In s (fstructs f) /\ sname s = n /\ Struct r' n = Some s /\ (forall e, Struct r n = Some e -> Extern e = true)) /\
  (forall n, Context r' n = Context r n \/
     exists c, In c (fcontexts f) /\ cname c = n /\ Context r' n = Some c /\ Context r n = None) /\
  (forall n, Constant r' n = Constant r n \/
     exists c, In c (fconstants f) /\ kname c = n /\ Constant r' n = Some (kvalue c) /\ Constant r n = None).
Proof. exact addfile_only_new. Qed.
Print Assumptions C09_failed_addfile_partial.

Theorem C09_repeated_struct_partial : forall o r f, ~ NoDup (map sname (fstructs f)) ->
  AddFile o r f = (r, Err "duplicate struct name").
Proof. exact addfile_dup_struct. Qed.
Print Assumptions C09_repeated_struct_partial.

Example C09_case : exists o r f, valid_orders o /\ snd (AddFile o r f) = Err "cannot override constant" /\
  Struct r "a" = None /\ Struct (fst (AddFile o r f)) "a" <> None /\ Constant (fst (AddFile o r f)) "K" = Constant r "K".
Proof.
  exists id_orders, (mkRes [] [] [("K", 1)]), (mkFile [mkConst "K" 2] [] [mkStruct "a" [] (Some [])] []).
  split; [apply (id_orders_valid O)|]. repeat split. discriminate.
Qed.

(** C10, the resolver's side: the set has exactly the listed integers; overlap is
    the only error; an undefined constant is an error.  The generated
    condition's side is [C10_condition_exact] in P_Gen.v. *)
Theorem C10_intervals_exact : forall r l, good_list (Constant r) l ->
  (list_overlaps (Constant r) l /\ Intervals r l = Err "overlapping intervals") \/
  (~ list_overlaps (Constant r) l /\ exists s, Intervals r l = Ok s /\ wf_set s /\
     (forall x, Contains s x = true <-> in_list (Constant r) l x)).
Proof. exact Intervals_correct. Qed.
Print Assumptions C10_intervals_exact.

Theorem C10_intervals_undefined : forall r l1 g l2, good_list (Constant r) l1 ->
  range_bounds (Constant r) g = None -> Intervals r (l1 ++ g :: l2) = Err "constant undefined".
Proof. exact Intervals_undefined. Qed.
Print Assumptions C10_intervals_undefined.

(** A reversed range, which the language accepts, panics. *)
Theorem C10_reversed_range_panics : exists r l, Intervals r l = Panic "bad range".
Proof. exact Intervals_reversed_panics. Qed.
Print Assumptions C10_reversed_range_panics.

Example C10_case : let r := mkRes [] [] [("K", 7)] in
  let l := [mkRange (ILit 1) (Some (ILit 4)); mkRange (IConst "K") None] in
  good_list (Constant r) l /\ Intervals r l = Ok (mkSet [mkI 1 4; mkI 7 7]) /\
  Intervals r (l ++ [mkRange (ILit 2) None]) = Err "overlapping intervals".
Proof.
  split; [|split; reflexivity].
  repeat constructor; eexists; eexists; (split; [reflexivity|]); vm_compute; repeat split; discriminate.
Qed.

(** C11, the resolver's side: [Lookup] finds the first case listing the tag, else the default. *)
Theorem C11_lookup_exact : forall r s tag cs sz cst bs x,
  Forall (good_case (Constant r)) cs -> one_default cs ->
  IntType r tag s = Ok (sz, cst) -> 0 <= sz <= 64 ->
  NewBranches r s tag cs = Ok bs -> 0 <= x < 2 ^ sz ->
  forall c, (exists b, Lookup bs x = Some b /\ bcase b = c) <-> takes (Constant r) cs x c.
Proof. exact lookup_takes. Qed.
Print Assumptions C11_lookup_exact.

Example C11_case :
  let s := mkStruct "s" [] (Some [MField "t" (TInt 8 None)]) in
  let cs := [UCase (Some [mkRange (ILit 1) (Some (ILit 4))]) [MFail];
             UCase None []; UCase (Some [mkRange (ILit 3) (Some (ILit 5))]) [MIgnore]] in
  exists bs, NewBranches NewResolverEmpty s (mkRef "" "t") cs = Ok bs /\
    option_map bcase (Lookup bs 4) = Some (UCase (Some [mkRange (ILit 1) (Some (ILit 4))]) [MFail]) /\
    option_map bcase (Lookup bs 5) = Some (UCase (Some [mkRange (ILit 3) (Some (ILit 5))]) [MIgnore]) /\
    option_map bcase (Lookup bs 200) = Some (UCase None []).
Proof. eexists. split; [vm_compute; reflexivity|]. vm_compute. auto. Qed.
