(** Concrete packages used to show that the hypotheses of the theorems about
    generated parsers can be met, and as witnesses of refutations. *)
From Coq Require Import ZArith String Ascii List Bool Lia.
From Verif Require Import Base Ast IntervalsModel InspectModel InspectSpec InspectProofs GoLang GenModel GenDecode GenCheck
  WireSpec WireProofs WireComplete GenTerm GenSafe WireFacts PackageSpec PackageProofs PackageFacts.
Import ListNotations.
Open Scope string_scope.
Open Scope list_scope.
Open Scope Z_scope.

(** A naming function: words separated by underscores get capitals. *)
Definition upper (c : ascii) : ascii :=
  let n := nat_of_ascii c in if (97 <=? n)%nat && (n <=? 122)%nat then ascii_of_nat (n - 32) else c.
Fixpoint camelGo (up : bool) (s : string) : string :=
  match s with
  | EmptyString => EmptyString
  | String c s' => if Ascii.eqb c "_" then camelGo true s' else String (if up then upper c else c) (camelGo false s')
  end.
Definition camelX (s : string) : string := camelGo true s.
Definition osX : nat -> orders := fun _ => id_orders.

Definition theRes (fs : list file) : resolver :=
  match NewResolverFiles osX fs with Ok r => r | _ => NewResolverEmpty end.
Definition theProg (fs : list file) : program :=
  match Marshallers camelX osX fs with Ok p => p | _ => mkProg [] [] [] end.
Definition isPackage (fs : list file) : bool :=
  match NewResolverFiles osX fs, Marshallers camelX osX fs with
  | Ok r, Ok _ => checkFiles camelX r fs
  | _, _ => false
  end.
Lemma package_of : forall fs, isPackage fs = true -> package camelX osX fs (theRes fs) (theProg fs).
Proof.
  intros fs H. unfold isPackage in H. constructor; unfold theRes, theProg.
  - apply id_orders_valid.
  - destruct (NewResolverFiles osX fs); try discriminate. reflexivity.
  - destruct (NewResolverFiles osX fs); try discriminate. destruct (Marshallers camelX osX fs); try discriminate. reflexivity.
  - destruct (NewResolverFiles osX fs); try discriminate. destruct (Marshallers camelX osX fs); try discriminate. exact H.
Qed.

Definition u8 n := MField n (TInt 8 None).
Definition u16 n := MField n (TInt 16 None).
Definition local n := mkRef "" n.
Definition is n := Some [mkRange (ILit n) None].

(**
<<
const LIMIT = 3;
context opts { u8 extra; }
struct point { u8 x; u8 y IN [1..LIMIT]; }
struct msg with context opts {
  u8 tag;
  u8 len;
  @ptr pos;
  union body[tag] with length len {
    1: struct point p; struct point q;
    2: nulterm name;
    3: u16 words[];
    9: fail;
    default: ignore;
  };
  u8 count IN [0..4];
  struct point pts[count];
  u16 pair[2];
  u8 more[opts.extra];
}
struct tail { u8 kind; u8 body[..-1]; u8 last; eos; }
>> *)
Definition point : struct :=
  mkStruct "point" [] (Some [u8 "x"; MField "y" (TInt 8 (Some [mkRange (ILit 1) (Some (IConst "LIMIT"))]))]).
Definition bodyCases : list ucase :=
  [UCase (is 1) [MField "p" (TStruct "point"); MField "q" (TStruct "point")];
   UCase (is 2) [MField "name" TNul];
   UCase (is 3) [MField "words" (TVar (TInt 16 None) None)];
   UCase (is 9) [MFail];
   UCase None [MIgnore]].
Definition body : member := MUnion "body" (local "tag") (Some (LRef (local "len"))) bodyCases.
Definition msg : struct :=
  mkStruct "msg" ["opts"] (Some
    [u8 "tag"; u8 "len"; MField "pos" TPtr; body;
     MField "count" (TInt 8 (Some [mkRange (ILit 0) (Some (ILit 4))]));
     MField "pts" (TVar (TStruct "point") (Some (LRef (local "count"))));
     MField "pair" (TFixed (TInt 16 None) (ILit 2));
     MField "more" (TVar (TInt 8 None) (Some (LRef (mkRef "opts" "extra"))))]).
Definition tail : struct :=
  mkStruct "tail" [] (Some
    [u8 "kind"; MField "body" (TVar (TInt 8 None) (Some (LLeftover (ILit 1)))); u8 "last"; MEOS]).
Definition demo : list file :=
  [mkFile [mkConst "LIMIT" 3] [mkCtx "opts" [("extra", TInt 8 None)]] [point; msg; tail] []].
Definition demoR := theRes demo.
Definition demoP := theProg demo.
Lemma demo_package : package camelX osX demo demoR demoP.
Proof. apply package_of. vm_compute. reflexivity. Qed.
Lemma demo_ptr : ptrFiles demo = true.
Proof. reflexivity. Qed.
Lemma demo_structs : forall s, defines demo s -> s = point \/ s = msg \/ s = tail.
Proof.
  intros s (_ & f & [<-|[]] & I). cbn in I. destruct I as [<-|[<-|[<-|[]]]]; auto.
Qed.
Lemma demo_point : defines demo point.
Proof. split; [reflexivity|]. eexists. split; [left; reflexivity|]. cbn. auto. Qed.
Lemma demo_msg : defines demo msg.
Proof. split; [reflexivity|]. eexists. split; [left; reflexivity|]. cbn. auto. Qed.
Lemma demo_tail : defines demo tail.
Proof. split; [reflexivity|]. eexists. split; [left; reflexivity|]. cbn. auto. Qed.
Lemma demo_point_eats : eats (Constant demoR) (Struct demoR) (TStruct "point").
Proof. apply Eats_struct with (s := point); [vm_compute; reflexivity|]. constructor. constructor. constructor. reflexivity. Qed.
Ltac cases H := cbn in H; repeat (destruct H as [H|H]; [try (injection H as <- <-)|]); try contradiction.
Ltac fieldCases J :=
  cbn in J; repeat match type of J with _ \/ _ => destruct J as [J|J] end; try contradiction;
  first [discriminate J | injection J; intros; subst; first [lia | left; lia]].
Lemma demo_solid : solidFiles demo demoR.
Proof.
  intros s D nm t I. apply demo_structs in D as [->|[->| ->]]; cases I; cbn; auto using demo_point_eats. constructor. reflexivity.
Qed.
Lemma demo_narrow : narrowFiles demo demoR.
Proof.
  intros s D f I. apply demo_structs in D as [->|[->| ->]]; cbn in I; repeat (destruct I as [<-|I]; [|]); try contradiction;
    split; intros E; try discriminate E; try (exfalso; apply E; reflexivity).
  - intros sz cst J. fieldCases J.
  - intros sz cst J. fieldCases J.
  - intros c sz cst C J. vm_compute in C. injection C as <-. fieldCases J.
Qed.
Definition demoRank (s : string) : nat := if String.eqb s "point" then 0 else 1.
Lemma demo_progress : progress demo demoR demoRank.
Proof.
  assert (E8 : forall sz c, 0 < sz / 8 -> eats (Constant demoR) (Struct demoR) (TInt sz c)) by (intros; now constructor).
  intros s D. apply demo_structs in D as [->|[->| ->]]; split.
  - intros nm t I. cases I; exact Logic.I.
  - apply G_field; [exact Logic.I|]. left. apply E8. reflexivity.
  - intros nm t I. cases I; cbn; auto. apply E8. reflexivity.
  - apply G_field; [exact Logic.I|]. left. apply E8. reflexivity.
  - intros nm t I. cases I; cbn; auto. apply E8. reflexivity.
  - apply G_field; [exact Logic.I|]. left. apply E8. reflexivity.
Qed.
Lemma demo_total : forall s, defines demo s -> forallb totalM (members_of s) = true.
Proof. intros s D. apply demo_structs in D as [->|[->| ->]]; reflexivity. Qed.

(** Proving calls valid. *)
Lemma bytes_ok : forall b, forallb (fun x => (0 <=? x) && (x <? 256)) b = true -> blen b < two63 -> goBytes b.
Proof.
  intros b H L. split; auto. apply Forall_forall. intros x I. rewrite forallb_forall in H. specialize (H x I). unfold is_byte. lia.
Qed.
Definition optsV (n : Z) : value := VStruct "Opts" [("Extra", VInt n)].
Lemma msg_call : forall data n, goBytes data -> 0 <= n < 256 ->
  validCall camelX demo demoR msg (blank camelX (Constant demoR) msg) data [optsV n].
Proof.
  intros data n GB N. constructor; auto.
  - apply demo_msg.
  - constructor; [|constructor]. exists (mkCtx "opts" [("extra", TInt 8 None)]). split; [vm_compute; reflexivity|].
    exists [("Extra", VInt n)]. split; [reflexivity|]. constructor; [|constructor]. split; [reflexivity|].
    intros sz cst E. injection E as <- <-. exists n. auto.
  - apply (blank_goStruct camelX osX demo demoR demoP demo_package). apply defines_in, demo_msg.
Qed.
Lemma tail_call : forall data, goBytes data -> validCall camelX demo demoR tail (blank camelX (Constant demoR) tail) data [].
Proof.
  intros data GB. constructor; auto.
  - apply demo_tail.
  - constructor.
  - apply (blank_goStruct camelX osX demo demoR demoP demo_package). apply defines_in, demo_tail.
Qed.
Lemma point_call : forall data, goBytes data -> validCall camelX demo demoR point (blank camelX (Constant demoR) point) data [].
Proof.
  intros data GB. constructor; auto.
  - apply demo_point.
  - constructor.
  - apply (blank_goStruct camelX osX demo demoR demoP demo_package). apply defines_in, demo_point.
Qed.

(** A message: tag 1, 4 bytes of body, one point, a pair, two more bytes; two
    bytes follow. *)
Definition msgBytes : bytes := [1; 4; 5; 1; 6; 2; 1; 7; 3; 0; 8; 1; 0; 42; 43].
Definition mkPoint x y : value := VStruct "Point" [("X", VInt x); ("Y", VInt y)].
Definition msgFields : amap value :=
  [("Tag", VInt 1); ("Len", VInt 4); ("Pos", VInt 2); ("P", mkPoint 5 1); ("Q", mkPoint 6 2); ("Name", VStr []);
   ("Words", VNil); ("Count", VInt 1); ("Pts", VList [mkPoint 7 3]); ("Pair", VList [VInt 8; VInt 256]);
   ("More", VList [VInt 42; VInt 43])].
Definition msgRest : bytes := [99; 100].
Lemma msg_bytes : goBytes (msgBytes ++ msgRest).
Proof. apply bytes_ok; vm_compute; reflexivity. Qed.
Lemma msg_parses : parses camelX demoP msg (blank camelX (Constant demoR) msg) (msgBytes ++ msgRest) [optsV 2] msgFields msgRest.
Proof.
  apply (parses_dec camelX osX demo demoR demoP demo_package _ _ _ _ (msg_call _ 2 msg_bytes ltac:(lia))).
  exists 6%nat. vm_compute. reflexivity.
Qed.
