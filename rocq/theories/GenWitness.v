(** Packages on which generated parsers misbehave: witnesses of refutations. *)
From Coq Require Import ZArith String List Bool Lia.
From Verif Require Import Base Ast IntervalsModel InspectModel InspectSpec InspectProofs BranchProofs GoLang GenModel GenDecode GenCheck
  WireSpec WireProofs WireComplete GenTerm GenSafe WireFacts PackageSpec PackageProofs PackageFacts GenExamples.
Import ListNotations.
Open Scope string_scope.
Open Scope list_scope.
Open Scope Z_scope.

Definition one (ss : list struct) : list file := [mkFile [] [] ss []].
Lemma one_defines : forall ss s, In s ss -> Extern s = false -> defines (one ss) s.
Proof. intros ss s I E. split; auto. eexists. split; [left; reflexivity|exact I]. Qed.
(** A call on a fresh receiver of a struct without contexts. *)
Lemma fresh_call : forall ss s data, isPackage (one ss) = true -> In s ss -> Extern s = false -> scontexts s = [] -> goBytes data ->
  validCall camelX (one ss) (theRes (one ss)) s (blank camelX (Constant (theRes (one ss))) s) data [].
Proof.
  intros ss s data P I E C GB. pose proof (one_defines _ _ I E) as D. constructor; auto.
  - unfold ctxValues. rewrite C. constructor.
  - apply (blank_goStruct camelX osX (one ss) _ _ (package_of _ P)). now apply defines_in.
Qed.

(** [struct big { u64 n; u8 a[n]; }] *)
Definition big : struct := mkStruct "big" [] (Some [MField "n" (TInt 64 None); MField "a" (TVar (TInt 8 None) (Some (LRef (local "n"))))]).
Definition bigData : bytes := [128; 0; 0; 0; 0; 0; 0; 0].
Lemma big_panics : panics camelX (theProg (one [big])) big (blank camelX (Constant (theRes (one [big]))) big) bigData [] "makeslice: len out of range".
Proof.
  apply (panics_dec camelX osX (one [big]) (theRes (one [big])) _ (package_of (one [big]) ltac:(vm_compute; reflexivity))).
  - apply fresh_call; auto; try (vm_compute; reflexivity). { now left. } { apply bytes_ok; vm_compute; reflexivity. }
  - exists 3%nat. vm_compute. reflexivity.
Qed.
(** [struct part { u64 n; union u[n] with length n { default: ignore; }; }] *)
Definition part : struct := mkStruct "part" [] (Some [MField "n" (TInt 64 None); MUnion "u" (local "n") (Some (LRef (local "n"))) [UCase None [MIgnore]]]).
Lemma part_panics : panics camelX (theProg (one [part])) part (blank camelX (Constant (theRes (one [part]))) part) bigData [] "slice bounds out of range".
Proof.
  apply (panics_dec camelX osX (one [part]) (theRes (one [part])) _ (package_of (one [part]) ltac:(vm_compute; reflexivity))).
  - apply fresh_call; auto; try (vm_compute; reflexivity). { now left. } { apply bytes_ok; vm_compute; reflexivity. }
  - exists 3%nat. vm_compute. reflexivity.
Qed.

(** [struct empty {}  struct list { struct empty xs[]; }] *)
Definition empty : struct := mkStruct "empty" [] (Some []).
Definition listS : struct := mkStruct "list" [] (Some [MField "xs" (TVar (TStruct "empty") None)]).
Definition loopFiles := one [empty; listS].
Lemma empty_call : forall n c, decCall camelX (theRes loopFiles) n "empty" [] c = OutOfFuel \/
  decCall camelX (theRes loopFiles) n "empty" [] c = Ok (VStruct "Empty" [], c).
Proof. intros [|n] c; [left|right]; reflexivity. Qed.
Lemma list_while : forall n d m b c, decWhile (theRes loopFiles) (decCall camelX (theRes loopFiles) n) [] d m (TStruct "empty") (b :: c) = OutOfFuel.
Proof.
  intros n d. induction m as [|m IH]; intros b c; [reflexivity|]. cbn [decWhile].
  replace (blen (b :: c) <=? 0) with false by (symmetry; apply Z.leb_gt; unfold blen; cbn [Datatypes.length]; lia).
  cbn [decBase]. destruct (empty_call n (b :: c)) as [-> | ->]; [reflexivity|]. cbn [bind]. rewrite IH. reflexivity.
Qed.
Lemma list_loops : forall b c, goBytes (b :: c) ->
  neverEnds camelX (theProg loopFiles) listS (blank camelX (Constant (theRes loopFiles)) listS) (b :: c) [].
Proof.
  intros b c GB n. apply (run_fuel camelX osX loopFiles (theRes loopFiles) _ (package_of loopFiles ltac:(vm_compute; reflexivity))).
  - apply fresh_call; auto; try (vm_compute; reflexivity). right; now left.
  - destruct n as [|n]; [reflexivity|]. cbn [decStruct decMembers decMember listS members_of smembers decType].
    change (contextsOf listS []) with (@nil (string * value)). rewrite list_while. reflexivity.
Qed.

(** [struct empty {}  struct hollow { u64 n; struct empty xs[n]; }] *)
Definition hollow : struct := mkStruct "hollow" [] (Some [MField "n" (TInt 64 None); MField "xs" (TVar (TStruct "empty") (Some (LRef (local "n"))))]).
Definition hollowFiles := one [empty; hollow].
Notation hollowR := (theRes hollowFiles).
Lemma hollow_panics : panics camelX (theProg hollowFiles) hollow (blank camelX (Constant hollowR) hollow) bigData [] "makeslice: len out of range".
Proof.
  apply (panics_dec camelX osX hollowFiles hollowR _ (package_of hollowFiles ltac:(vm_compute; reflexivity))).
  - apply fresh_call; auto; try (vm_compute; reflexivity). { right. now left. } { apply bytes_ok; vm_compute; reflexivity. }
  - exists 3%nat. vm_compute. reflexivity.
Qed.
Lemma empties : forall n pos fs tail, encN camelX (Constant hollowR) (Struct hollowR) False [] pos fs (TStruct "empty")
  (repeat (VStruct "Empty" []) n) [] tail.
Proof.
  induction n as [|n IH]; intros pos fs tail; cbn [repeat]; [constructor|]. change (@nil Z) with (@nil Z ++ []) at 1. constructor; [|apply IH].
  change (VStruct "Empty" []) with (VStruct (camelX "empty") []). apply Enc_struct with (s := empty) (cenv' := []); [reflexivity|reflexivity|constructor|]. constructor.
Qed.
Lemma hollow_encodes : exists fs1, encStruct camelX (Constant hollowR) (Struct hollowR) False [] hollow
  (blank camelX (Constant hollowR) hollow) bigData [] fs1.
Proof.
  eexists. unfold encStruct. cbn [members_of hollow smembers]. change bigData with (bigData ++ []). eapply EncMs_cons.
  - apply EncM_field. apply Enc_int with (x := be bigData); [apply bigEndian_be; apply bytes_ok; vm_compute; reflexivity|reflexivity|discriminate].
  - change (@nil Z) with (@nil Z ++ []) at 1. eapply EncMs_cons; [|constructor]. apply EncM_field.
    apply (Enc_counted _ _ _ _ _ _ _ _ _ (repeat (VStruct "Empty" []) (Z.to_nat (2 ^ 63)))); [|apply empties].
    unfold blen. rewrite repeat_length, Z2Nat.id by (vm_compute; discriminate). reflexivity.
Qed.

(** [struct node { struct node next; }] *)
Definition node : struct := mkStruct "node" [] (Some [MField "next" (TStruct "node")]).
Definition nodeFiles := one [node].
Lemma node_call : forall n c, decCall camelX (theRes nodeFiles) n "node" [] c = OutOfFuel.
Proof.
  induction n as [|n IH]; intros c; [reflexivity|]. cbn [decCall]. change (Struct (theRes nodeFiles) "node") with (Some node).
  cbn. rewrite IH. reflexivity.
Qed.
Lemma node_loops : forall data, goBytes data -> neverEnds camelX (theProg nodeFiles) node (blank camelX (Constant (theRes nodeFiles)) node) data [].
Proof.
  intros data GB n. apply (run_fuel camelX osX nodeFiles (theRes nodeFiles) _ (package_of nodeFiles ltac:(vm_compute; reflexivity))).
  - apply fresh_call; auto; try (vm_compute; reflexivity). now left.
  - destruct n as [|n]; [reflexivity|]. cbn [decStruct decMembers decMember node members_of smembers decType decBase].
    change (contextsOf node []) with (@nil (string * value)). rewrite node_call. reflexivity.
Qed.

(** [struct pick { u8 t; union u[t] { 1: u8 x; }; }] *)
Definition pick : struct := mkStruct "pick" [] (Some [u8 "t"; MUnion "u" (local "t") None [UCase (is 1) [u8 "x"]]]).
Definition pickFiles := one [pick].
Lemma pick_package : package camelX osX pickFiles (theRes pickFiles) (theProg pickFiles).
Proof. apply package_of. vm_compute. reflexivity. Qed.
Lemma pick_call : forall x, 0 <= x < 256 -> validCall camelX pickFiles (theRes pickFiles) pick [("T", VInt 0); ("X", VInt x)] [2] [].
Proof.
  intros x X. constructor.
  - apply one_defines; [now left|reflexivity].
  - constructor.
  - repeat (constructor; cbn; auto). + exists 0. split; auto. lia. + exists x. auto.
  - apply bytes_ok; vm_compute; reflexivity.
Qed.
Lemma pick_parses : forall x, 0 <= x < 256 ->
  parses camelX (theProg pickFiles) pick [("T", VInt 0); ("X", VInt x)] [2] [] [("T", VInt 2); ("X", VInt x)] [].
Proof.
  intros x X. apply (parses_dec camelX osX pickFiles _ _ pick_package _ _ _ _ (pick_call x X)). exists 3%nat. reflexivity.
Qed.

(** [struct ifc { nulterm name; }]: the receiver is called [i], like the index. *)
Definition ifc : struct := mkStruct "ifc" [] (Some [MField "name" TNul]).
Definition ifcFiles := one [ifc].
Lemma ifc_clash : NewResolverFiles osX ifcFiles = Ok (theRes ifcFiles) /\ Marshallers camelX osX ifcFiles = Ok (theProg ifcFiles) /\
  defines ifcFiles ifc /\ snd (runParse camelX (theProg ifcFiles) 2 ifc (blank camelX (Constant (theRes ifcFiles)) ifc) [65; 0] []) = SPanic "ill-typed".
Proof. repeat split; try (vm_compute; reflexivity). eexists. split; [left; reflexivity|now left]. Qed.
