(** The generated parsers accept the test vectors of declarations of the class. *)
From Coq Require Import ZArith String List Bool Lia Permutation.
From Verif Require Import Base Ast IntervalsModel InspectModel InspectSpec InspectProofs GoLang GenModel GenCheck WireSpec WireProofs WireComplete WireFacts
  PackageSpec PackageProofs PackageFacts PackageMore ResDet TvLeaf TvModel TvConstraints TvClass TvGood TvFields TvSound TvBytes TvDet GenExamples GenWitness TvWitness.
Import ListNotations.
Open Scope string_scope.
Open Scope list_scope.
Open Scope Z_scope.

(** The arguments [args] for the contexts of [s] have the values that the
    constraints [c] ask for. *)
Definition meets (camel : string -> string) (s : struct) (args : list value) (c : cons) : Prop :=
  forall x k z, In x (scontexts s) -> cLookup c x k = Some z ->
    exists ty cf, alookup x (contextsOf s args) = Some (VStruct ty cf) /\ alookup (camel k) cf = Some (VInt z).

Section Accept.
Variable camel : string -> string.
Variable os : nat -> orders.
Variable fs : list file.
Variable r : resolver.
Variable p : program.
Hypothesis PK : package camel os fs r p.

Lemma call_world : forall s fs0 data args, validCall camel fs r s fs0 data args -> world camel s (contextsOf s args) fs0.
Proof.
  intros s fs0 data args VC. pose proof (vc_in camel fs r s fs0 data args VC) as I. split.
  - intros x X. pose proof (args_typed camel os fs r p PK s args (vc_args _ _ _ _ _ _ _ VC)) as T. destruct (T x X) as (v & E & ty & cf & -> & _).
    exists ty, cf. split; auto. intros k z L. pose proof (vc_wordc camel os fs r p PK s fs0 data args VC) as W.
    specialize (W x ty cf E k _ L). cbn [wordv] in W. lia.
  - intros n N. assert (exists t, In (n, t) (flat_map allFields (members_of s))) as (t & J).
    { unfold namesMs in N. rewrite names_fields in N. apply in_map_iff in N as ([n' t] & <- & J). eauto. }
    destruct (recv_has camel os fs r p PK s fs0 I (vc_recv _ _ _ _ _ _ _ VC) n t J) as (v & E).
    apply alookup_in in E. apply in_map_iff. exists (camel n, v). auto.
Qed.

Variable gr sg : string -> bool.
Hypothesis CL : classFiles camel r gr sg fs = true.
(** Numbers below 256 fit everywhere. *)
Lemma lens_256 : lensFiles 256 fs = true.
Proof.
  unfold lensFiles. apply forallb_forall. intros s I. pose proof CL as C. unfold classFiles in C. rewrite forallb_forall in C. specialize (C s I).
  apply forallb_forall. intros [nm t] J. destruct t as [sz cst| | | | | |]; auto. cbn [fst snd]. apply orb_true_iff. right. apply Z.leb_le.
  assert (S : okStruct camel r 0 gr sg s = true).
  { apply andb_true_iff. split; auto. apply forallb_forall. intros [n' t'] _. destruct t'; auto. cbn [fst snd]. apply orb_true_iff. right. apply Z.leb_le. apply Z.pow_nonneg. lia. }
  pose proof (size_ok camel r 0 gr sg s S nm sz cst J) as G. apply goodSize_cases in G. change 256 with (2 ^ 8). apply Z.pow_le_mono_r; lia.
Qed.

Variable lim : Z.
Hypothesis LF : lensFiles lim fs = true.
Hypothesis LM : lim <= maxData.
Hypothesis PT : ptrFiles fs = true.
Hypothesis SO : roomyFiles fs r.

Lemma class_struct : forall nm s, StructNonExtern r nm = Ok s -> sname s = nm /\ okStruct camel r lim gr sg s = true.
Proof.
  intros nm s H. unfold StructNonExtern in H. destruct (Struct r nm) as [s'|] eqn:E; [|discriminate]. destruct (Extern s') eqn:X; [discriminate|].
  injection H as ->. destruct (pk_res camel os fs r p PK _ _ E X) as (N & I). split; auto.
  unfold classFiles in CL. unfold lensFiles in LF. rewrite forallb_forall in CL, LF. apply andb_true_iff. auto.
Qed.

Theorem accepted : forall grow ords sel n rn c, (forall k, goodOrders (ords k)) -> (forall k vs, exists rest, Permutation (sel k vs ++ rest) vs) ->
  forall os', all_valid os' -> GenerateFiles grow ords sel os' n fs rn = Ok c ->
  forall u d k, In u c -> In (d, k) (svectors u) -> blen d < lim ->
  exists s, defines fs s /\ sname s = stype u /\ goBytes d /\
    forall fs0 args, ctxValues camel r s args -> goStruct camel r s fs0 -> meets camel s args k ->
      exists fs1, parses camel p s fs0 d args fs1 [].
Proof.
  intros grow ords sel n rn c O SE os' V' G u d k U D L.
  pose proof (vectors_same grow ords ords sel os' os n fs rn O O V' (pk_orders _ _ _ _ _ PK)) as SM. rewrite G in SM.
  destruct (GenerateFiles grow ords sel os n fs rn) as [c'|e|m|] eqn:G'; cbn in SM; try contradiction.
  assert (exists u' k', In u' c' /\ stype u' = stype u /\ In (d, k') (svectors u') /\ sameC k k') as (u' & k' & U' & T' & D' & S').
  { destruct (forall2_in_l _ _ _ _ SM U) as (u' & U' & T & F). destruct (forall2_in_l _ _ _ _ F D) as ([d' k'] & D' & E & S).
    cbn [fst snd] in E, S. subst d'. exists u', k'. auto. }
  assert (GB : goBytes d).
  { split; [|unfold maxData, two63 in *; lia]. pose proof (vectors_bytes _ _ _ _ _ _ _ _ G) as B. rewrite Forall_forall in B. specialize (B _ U). cbn beta in B.
    rewrite Forall_forall in B. apply (B _ D). }
  pose proof (vectors_good camel r False lim gr sg grow ords O sel SE class_struct os n fs rn c' (pk_resolved _ _ _ _ _ PK) CL LF G') as VG.
  rewrite Forall_forall in VG. destruct (VG _ U') as (s & I & N & F). rewrite Forall_forall in F. destruct (F _ D') as (NL & SG). cbn [fst snd] in NL, SG.
  assert (DS : defines fs s) by now apply defines_in.
  exists s. split; auto. split; [congruence|]. split; auto. intros fs0 args HA HR HM.
  assert (VC : validCall camel fs r s fs0 d args) by (constructor; auto).
  destruct (SG L (contextsOf s args) fs0 0 []) as (fs1 & E); auto.
  - eapply call_world; eauto.
  - intros x q z X _ K. destruct S' as (_ & _ & _ & _ & S'). rewrite <- S' in K. apply HM; auto.
  - exists fs1. eapply (encodes_parses camel os fs r p PK s fs0 d args VC PT SO); [lia|symmetry; apply app_nil_r|exact E].
Qed.
End Accept.

(** A declaration of the class.
<<
context opts { u8 extra; }
struct elt { u16 k IN [3..9]; nulterm s; }
struct pkt with context opts {
  struct elt it;
  u8 t; u8 n; u16 len;
  u32 x[n];
  union u[t] with length len {
    1: u8 a; struct elt elts[2];
    2..7: u8 m; char b[m];
    default: ignore;
  };
  u8 more[opts.extra];
}
>> *)
Definition elt : struct := mkStruct "elt" [] (Some [MField "k" (TInt 16 (Some [mkRange (ILit 3) (Some (ILit 9))])); MField "s" TNul]).
Definition pkt : struct := mkStruct "pkt" ["opts"] (Some
  [MField "it" (TStruct "elt"); u8 "t"; u8 "n"; MField "len" (TInt 16 None);
   MField "x" (TVar (TInt 32 None) (Some (LRef (local "n"))));
   MUnion "u" (local "t") (Some (LRef (local "len")))
     [UCase (is 1) [u8 "a"; MField "elts" (TFixed (TStruct "elt") (ILit 2))];
      UCase (Some [mkRange (ILit 2) (Some (ILit 7))]) [u8 "m"; MField "b" (TVar TChar (Some (LRef (local "m"))))];
      UCase None [MIgnore]];
   MField "more" (TVar (TInt 8 None) (Some (LRef (mkRef "opts" "extra"))))]).
Definition clsFiles : list file := [mkFile [] [mkCtx "opts" [("extra", TInt 8 None)]] [elt; pkt] []].
Definition clsR : resolver := theRes clsFiles.
Definition clsP : program := theProg clsFiles.
(** No struct looks at what follows; [elt] has one vector. *)
Definition noneGreedy (_ : string) : bool := false.
Definition eltSingle (s : string) : bool := String.eqb s "elt".

Lemma cls_package : package camelX osX clsFiles clsR clsP.
Proof. apply package_of. vm_compute. reflexivity. Qed.
Lemma cls_class : classFiles camelX clsR noneGreedy eltSingle clsFiles = true.
Proof. vm_compute. reflexivity. Qed.
Lemma cls_ptr : ptrFiles clsFiles = true.
Proof. reflexivity. Qed.
Lemma cls_solid : solidFiles clsFiles clsR.
Proof.
  intros s (_ & f & [<-|[]] & I) nm t J. cbn in I. destruct I as [<-|[<-|[]]]; cases J; cbn; auto; constructor; reflexivity.
Qed.
(** Its last vector. *)
Definition clsVector : bytes := [0; 3; 119; 104; 115; 100; 111; 122; 107; 0; 0; 8; 0; 1; 46; 213; 124; 35; 146; 57; 224; 135; 246; 157; 68; 235; 90; 1;
  168; 79; 190; 101; 12; 179; 34; 201; 112; 23; 134; 45; 212; 123; 234; 145; 56; 223; 159; 179; 12; 101; 190; 23; 112; 201; 34; 123; 212; 45; 134; 223; 56; 145; 234].
Definition clsCons : cons := [("opts", [("extra", 16)])].
Lemma cls_corpus : GenerateFiles goGrow (fun _ => uoX) allOf osX 50 clsFiles rngX = Ok (corpusOf goGrow clsFiles) /\
  exists u, In u (corpusOf goGrow clsFiles) /\ stype u = "pkt" /\ In (clsVector, clsCons) (svectors u).
Proof.
  split; [vm_compute; reflexivity|]. exists (nth 1 (corpusOf goGrow clsFiles) (mkSuite "" [])). split; [apply nth_In; apply Nat.ltb_lt; vm_compute; reflexivity|].
  split; [vm_compute; reflexivity|].
  replace (clsVector, clsCons) with (nth 3 (svectors (nth 1 (corpusOf goGrow clsFiles) (mkSuite "" []))) ([], [])) by (vm_compute; reflexivity).
  apply nth_In. apply Nat.ltb_lt. vm_compute. reflexivity.
Qed.
Lemma cls_args : ctxValues camelX clsR pkt [optsV 16] /\ meets camelX pkt [optsV 16] clsCons.
Proof.
  split.
  - constructor; [|constructor]. eexists. split; [vm_compute; reflexivity|]. eexists. split; [reflexivity|]. constructor; [|constructor].
    split; [reflexivity|]. intros sz cst E. injection E as <- <-. eexists. split; [reflexivity|]. lia.
  - intros x k z [<-|[]] E. cbn in E. destruct (String.eqb_spec k "extra") as [->|]; [|discriminate]. injection E as <-.
    do 2 eexists. split; reflexivity.
Qed.

(** A declaration of the class with constraints on a tag and on a length.
<<
struct con {
  u8 tag IN [2, 3..4, 5, 6]; u16 n IN [0..9, 10..31, 64];
  union value[tag] { 3: u32 num; 4: u8 eightbytes[8]; 5..6: nulterm string; default: fail; };
  u8 x[n];
}
>> *)
Definition con : struct := mkStruct "con" [] (Some
  [MField "tag" (TInt 8 (Some [mkRange (ILit 2) None; mkRange (ILit 3) (Some (ILit 4)); mkRange (ILit 5) None; mkRange (ILit 6) None]));
   MField "n" (TInt 16 (Some [mkRange (ILit 0) (Some (ILit 9)); mkRange (ILit 10) (Some (ILit 31)); mkRange (ILit 64) None]));
   MUnion "value" (local "tag") None [UCase (is 3) [MField "num" (TInt 32 None)]; UCase (is 4) [MField "eightbytes" (TFixed (TInt 8 None) (ILit 8))];
     UCase (Some [mkRange (ILit 5) (Some (ILit 6))]) [MField "string" TNul]; UCase None [MFail]];
   MField "x" (TVar (TInt 8 None) (Some (LRef (local "n"))))]).
Definition conFiles : list file := one [con].
Lemma con_class : package camelX osX conFiles (theRes conFiles) (theProg conFiles) /\ classFiles camelX (theRes conFiles) noneGreedy noneGreedy conFiles = true /\
  lensFiles 65536 conFiles = true /\ ptrFiles conFiles = true /\ solidFiles conFiles (theRes conFiles) /\
  exists c, GenerateFiles tight (fun _ => uoX) allOf osX 50 conFiles rngB = Ok c /\
    map (fun u => map (fun v => (nth 0 (fst v) 0, blen (fst v))) (svectors u)) c = [[(3, 8); (4, 12); (5, 12)]].
Proof.
  split; [apply package_of; vm_compute; reflexivity|]. split; [vm_compute; reflexivity|]. split; [reflexivity|]. split; [reflexivity|]. split.
  - intros s (_ & f & [<-|[]] & I) nm t J. cbn in I. destruct I as [<-|[]]. cases J; cbn; auto; constructor; reflexivity.
  - eexists. split; vm_compute; reflexivity.
Qed.

(** A declaration of the class with a vector that is too long for the field that
    holds the length of the union.
<<
struct long { u8 t; u8 n; union u[t] with length n { 1: u8 x[258]; }; }
>> *)
Definition long : struct := mkStruct "long" [] (Some [u8 "t"; u8 "n";
  MUnion "u" (local "t") (Some (LRef (local "n"))) [UCase (is 1) [MField "x" (TFixed (TInt 8 None) (ILit 258))]]]).
Definition longFiles : list file := one [long].
Definition longVector : bytes := match corpusOf goGrow longFiles with [s] => match svectors s with [v] => fst v | _ => [] end | _ => [] end.
Lemma long_bad : badVector goGrow longFiles long (longVector, []) "data too short" /\ blen longVector = 260 /\
  classFiles camelX (theRes longFiles) noneGreedy noneGreedy longFiles = true /\ ptrFiles longFiles = true /\ solidFiles longFiles (theRes longFiles) /\
  lensFiles 256 longFiles = true /\ lensFiles 257 longFiles = false.
Proof.
  assert (P : package camelX osX longFiles (theRes longFiles) (theProg longFiles)) by (apply package_of; vm_compute; reflexivity).
  split.
  - split; auto. split; [apply one_defines; [now left|reflexivity]|]. split; [reflexivity|]. split; [vm_compute; reflexivity|]. split.
    + exists (mkSuite "long" [(longVector, [])]). split; [vm_compute; auto|]. split; [reflexivity|]. split; [reflexivity|]. now left.
    + apply (fails_dec camelX osX longFiles _ _ P).
      * apply fresh_call; auto; try (vm_compute; reflexivity). { now left. } { apply bytes_ok; vm_compute; reflexivity. }
      * exists 300%nat. vm_compute. reflexivity.
  - split; [vm_compute; reflexivity|]. split; [vm_compute; reflexivity|]. split; [reflexivity|]. split; [|split; vm_compute; reflexivity].
    intros s (_ & f & [<-|[]] & I) nm t J. cbn in I. destruct I as [<-|[]]. cases J; cbn; auto; constructor; reflexivity.
Qed.
