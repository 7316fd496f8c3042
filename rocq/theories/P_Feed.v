(** C82: reading messages one after the other. *)
From Coq Require Import ZArith String List Bool Lia ZifyBool ZifyNat.
From Verif Require Import Base Ast IntervalsModel InspectModel InspectSpec GoLang GenModel GenDecode GenCheck GenSimBody WireSpec WireProofs WireComplete GenTerm GenSafe WireFacts
  ReachSpec ReachProofs FaultProofs PackageSpec PackageProofs PackageFacts PackageMore GenExamples GenWitness P_Parse P_Fault.
Import ListNotations.
Open Scope string_scope.
Open Scope list_scope.
Open Scope Z_scope.

(** The bytes [w] are a message with fields [m], by the format alone. *)
Definition message (camel : string -> string) (r : resolver) (s : struct) (args : list value) (w : bytes) (m : amap value) : Prop :=
  encStruct camel (Constant r) (Struct r) True (contextsOf s args) s (blank camel (Constant r) s) w [] m.

(** The loop
<<
      for len(data) > 0 {
        x := new(T)
        if data, err = x.Parse(data, args...); err != nil { return msgs, err }
        msgs = append(msgs, x)
      }
      return msgs, nil
>>
    returns the messages and the error. *)
Inductive reads (camel : string -> string) (r : resolver) (p : program) (s : struct) (args : list value) : bytes -> list (amap value) -> option string -> Prop :=
| R_end : reads camel r p s args [] [] None
| R_next : forall data m rest ms o, data <> [] -> parses camel p s (blank camel (Constant r) s) data args m rest ->
    reads camel r p s args rest ms o -> reads camel r p s args data (m :: ms) o
| R_error : forall data e, data <> [] -> fails camel p s (blank camel (Constant r) s) data args e -> reads camel r p s args data [] (Some e).

(** The data is made of these messages. *)
Definition madeOf (camel : string -> string) (r : resolver) (s : struct) (args : list value) (ws : list bytes) (ms : list (amap value)) : Prop :=
  Forall2 (message camel r s args) ws ms /\ ~ In [] ws.

Lemma goBytes_app : forall a b, goBytes (a ++ b) -> goBytes a /\ goBytes b.
Proof.
  intros a b [A L]. apply all_bytes_app in A as [A B]. rewrite blen_app in L. pose proof (blen_nonneg a). pose proof (blen_nonneg b).
  split; split; auto; lia.
Qed.

Section Feed.
Variable camel : string -> string.
Variable os : nat -> orders.
Variable fs : list file.
Variable r : resolver.
Variable p : program.
Hypothesis PK : package camel os fs r p.
Hypothesis PT : ptrFiles fs = true.
Variable s : struct.
Variable args : list value.
Hypothesis DS : defines fs s.
Hypothesis AR : ctxValues camel r s args.
Notation blk := (blank camel (Constant r) s).
Notation Reads := (reads camel r p s args).
Notation Message := (message camel r s args).
Notation cenv := (contextsOf s args).

Lemma fresh : forall data, goBytes data -> validCall camel fs r s blk data args.
Proof.
  intros data GB. constructor; auto. apply (blank_goStruct camel os fs r p PK). now apply defines_in.
Qed.
Lemma parses_rest : forall data m rest, goBytes data -> parses camel p s blk data args m rest -> goBytes rest.
Proof. intros data m rest GB H. destruct (suffix camel os fs r p PK _ _ _ _ (fresh data GB) _ _ H) as [w ->]. now apply goBytes_app in GB. Qed.

Lemma reads_fun : forall data ms o, Reads data ms o -> goBytes data -> forall ms' o', Reads data ms' o' -> ms = ms' /\ o = o'.
Proof.
  intros data ms o H. induction H as [|data m rest ms o NE HP H IH|data e NE HF]; intros GB ms' o' H'.
  - inversion H' as [|? ? ? ? ? N|? ? N]; subst; auto; congruence.
  - inversion H' as [|? m2 rest2 ms2 o2 _ HP2 H2|? e _ HF]; subst; [congruence| |].
    + destruct (parses_fun camel os fs r p PK _ _ _ _ (fresh data GB) _ _ _ _ HP HP2) as [<- <-].
      destruct (IH (parses_rest _ _ _ GB HP) _ _ H2) as [<- <-]. auto.
    + exfalso. destruct HP as [n1 HP], HF as [n2 HF]. specialize (HP (n1 + n2)%nat ltac:(lia)). specialize (HF (n1 + n2)%nat ltac:(lia)). rewrite HP in HF. discriminate.
  - inversion H' as [|? m2 rest2 ms2 o2 _ HP|? e2 _ HF2]; subst; [congruence| |].
    + exfalso. destruct HP as [n1 HP], HF as [n2 HF]. specialize (HP (n1 + n2)%nat ltac:(lia)). specialize (HF (n1 + n2)%nat ltac:(lia)). rewrite HP in HF. discriminate.
    + split; auto. destruct HF2 as [n1 HF2], HF as [n2 HF]. specialize (HF2 (n1 + n2)%nat ltac:(lia)). specialize (HF (n1 + n2)%nat ltac:(lia)). congruence.
Qed.

Hypothesis SD : selfDelimiting r s.
Lemma reads_made : forall data ms o, Reads data ms o -> goBytes data ->
  exists ws last, data = concat ws ++ last /\ madeOf camel r s args ws ms /\
    match o with None => last = [] | Some e => last <> [] /\ fails camel p s blk last args e end.
Proof.
  intros data ms o H. induction H as [|data m rest ms o NE HP H IH|data e NE HF]; intros GB.
  - exists [], []. split; auto. split; auto. split; [constructor|intros []].
  - pose proof (parses_rest _ _ _ GB HP) as GR. destruct (IH GR) as (ws & last & E & [F N] & O).
    destruct (parses_encodes camel os fs r p PK _ _ _ _ (fresh data GB) PT True (or_introl I) _ _ HP) as (w & EW & EN).
    exists (w :: ws), last. split; [cbn [concat]; now rewrite <- app_assoc, <- E|]. split; auto. split.
    + constructor; auto. unfold message. eapply struct_tail_free; eauto.
    + intros [->|I]; [|auto]. cbn [app] in EW.
      assert (X : Reads data (m :: ms) o) by (econstructor; eauto).
      rewrite <- EW in H. destruct (reads_fun _ _ _ X GB _ _ H) as [Y _]. apply (f_equal (@List.length _)) in Y. cbn in Y. lia.
  - exists [], data. split; auto. split; [split; [constructor|intros []]|]. auto.
Qed.

Hypothesis RO : roomyFiles fs r.
Lemma message_parses : forall w m rest, Message w m -> goBytes (w ++ rest) -> blen (w ++ rest) <= maxData ->
  parses camel p s blk (w ++ rest) args m rest.
Proof.
  intros w m rest M GB L. refine (encodes_parses camel os fs r p PK _ _ _ _ (fresh _ GB) PT RO L True w rest m eq_refl _).
  eapply struct_tail_free; eauto.
Qed.
Lemma made_reads : forall ws ms, Forall2 Message ws ms -> ~ In [] ws -> forall last ms' o, goBytes (concat ws ++ last) -> blen (concat ws ++ last) <= maxData ->
  Reads last ms' o -> Reads (concat ws ++ last) (ms ++ ms') o.
Proof.
  intros ws ms F. induction F as [|w m ws ms M F IH]; intros N last ms' o GB L R; [exact R|].
  cbn [concat app] in *. rewrite <- app_assoc in *. eapply R_next; [|eapply message_parses; eauto|].
  - intros E. apply app_eq_nil in E as [-> _]. apply N. now left.
  - apply IH; auto; [intros Q; apply N; now right|exact (proj2 (goBytes_app _ _ GB))|]. rewrite blen_app in L. pose proof (blen_nonneg w). lia.
Qed.
End Feed.

(** What is made of messages is read as these messages ... *)
Theorem C82_messages_read : forall camel os fs r p, package camel os fs r p -> ptrFiles fs = true ->
  forall s args, defines fs s -> ctxValues camel r s args -> selfDelimiting r s -> roomyFiles fs r ->
  forall ws ms, madeOf camel r s args ws ms -> goBytes (concat ws) -> blen (concat ws) <= maxData ->
  reads camel r p s args (concat ws) ms None.
Proof.
  intros camel os fs r p PK PT s args DS AR SD RO ws ms [F N] GB L.
  rewrite <- (app_nil_r (concat ws)), <- (app_nil_r ms). rewrite <- (app_nil_r (concat ws)) in GB, L.
  eapply made_reads; eauto. constructor.
Qed.
Print Assumptions C82_messages_read.

(** ... and what is read to the end is made of the messages read. *)
Theorem C82_only_messages_read : forall camel os fs r p, package camel os fs r p -> ptrFiles fs = true ->
  forall s args, defines fs s -> ctxValues camel r s args -> selfDelimiting r s ->
  forall data ms, goBytes data -> reads camel r p s args data ms None -> exists ws, data = concat ws /\ madeOf camel r s args ws ms.
Proof.
  intros camel os fs r p PK PT s args DS AR SD data ms GB H.
  destruct (reads_made camel os fs r p PK PT s args DS AR SD _ _ _ H GB) as (ws & last & E & M & ->). rewrite app_nil_r in E. eauto.
Qed.
Print Assumptions C82_only_messages_read.

(** Data is made of messages in one way only. *)
Theorem C82_one_way : forall camel os fs r p, package camel os fs r p -> ptrFiles fs = true ->
  forall s args, defines fs s -> ctxValues camel r s args -> selfDelimiting r s -> roomyFiles fs r ->
  forall ws ms ws' ms', madeOf camel r s args ws ms -> madeOf camel r s args ws' ms' -> concat ws = concat ws' ->
  goBytes (concat ws) -> blen (concat ws) <= maxData -> ws = ws' /\ ms = ms'.
Proof.
  intros camel os fs r p PK PT s args DS AR SD RO. induction ws as [|w ws IH]; intros ms ws' ms' [F N] [F' N'] E GB L.
  - inversion F; subst. destruct ws' as [|w' ws']; [inversion F'; auto|]. exfalso. cbn in E. symmetry in E. apply app_eq_nil in E as [-> _]. apply N'. now left.
  - destruct ws' as [|w' ws']; [exfalso; cbn in E; apply app_eq_nil in E as [-> _]; apply N; now left|].
    inversion F as [|? m ? ms1 M F1]; subst. inversion F' as [|? m' ? ms1' M' F1']; subst. cbn [concat] in *.
    pose proof (message_parses camel os fs r p PK PT s args DS AR SD RO w m (concat ws) M GB L) as P1.
    assert (P2 : parses camel p s (blank camel (Constant r) s) (w ++ concat ws) args m' (concat ws')).
    { rewrite E in *. exact (message_parses camel os fs r p PK PT s args DS AR SD RO w' m' (concat ws') M' GB L). }
    destruct (parses_fun camel os fs r p PK _ _ _ _ (fresh camel os fs r p PK s args DS AR _ GB) _ _ _ _ P1 P2) as [<- EC].
    rewrite <- EC in E. apply app_inv_tail in E as <-.
    destruct (IH ms1 ws' ms1') as [E1 E2].
    + split; [exact F1|]. intros Q. apply N. now right.
    + split; [exact F1'|]. intros Q. apply N'. now right.
    + exact EC.
    + exact (proj2 (goBytes_app _ _ GB)).
    + rewrite blen_app in L. pose proof (blen_nonneg w). lia.
    + subst. auto.
Qed.
Print Assumptions C82_one_way.

(** The loop stops with an error exactly if, after the messages returned, data is
    left that has the fault ahead. *)
Theorem C82_stops : forall camel os fs r p, package camel os fs r p -> ptrFiles fs = true ->
  forall s args, defines fs s -> ctxValues camel r s args -> selfDelimiting r s -> roomyFiles fs r ->
  forall data ms e, goBytes data -> blen data <= maxData ->
  reads camel r p s args data ms (Some e) <->
  exists ws last, data = concat ws ++ last /\ madeOf camel r s args ws ms /\ last <> [] /\
    faultAhead camel r (contextsOf s args) s (blank camel (Constant r) s) last e.
Proof.
  intros camel os fs r p PK PT s args DS AR SD RO data ms e GB L. split.
  - intros H. destruct (reads_made camel os fs r p PK PT s args DS AR SD _ _ _ H GB) as (ws & last & -> & M & NE & F).
    exists ws, last. split; auto. split; auto. split; auto. apply goBytes_app in GB as [_ GB].
    exact (C81_errors_have_causes camel os fs r p PK _ _ _ _ (fresh camel os fs r p PK s args DS AR _ GB) PT e F).
  - intros (ws & last & -> & [F N] & NE & FA). rewrite <- (app_nil_r ms).
    eapply made_reads; eauto. apply R_error; auto.
    apply (C81_errors_exact camel os fs r p PK _ _ _ _ (fresh camel os fs r p PK s args DS AR _ (proj2 (goBytes_app _ _ GB))) PT RO); auto.
    rewrite blen_app in L. pose proof (blen_nonneg (concat ws)). lia.
Qed.
Print Assumptions C82_stops.

(** The loop ends on all data, with lengths of at most 32 bits, if messages are never
    empty and parsers end. *)
Theorem C82_ends : forall camel os fs r p, package camel os fs r p -> ptrFiles fs = true ->
  forall s args, defines fs s -> ctxValues camel r s args -> narrowFiles fs r -> forall rank, progress fs r rank ->
  eatsMs (Constant r) (Struct r) (members_of s) ->
  forall data, goBytes data -> exists ms o, reads camel r p s args data ms o.
Proof.
  intros camel os fs r p PK PT s args DS AR NA rank PR EA data.
  assert (H : forall n data, (List.length data <= n)%nat -> goBytes data -> exists ms o, reads camel r p s args data ms o).
  { induction n as [|n IH]; intros d Ld GB.
    - destruct d; [|cbn in Ld; lia]. exists [], None. constructor.
    - destruct d as [|b d']; [exists [], None; constructor|]. set (d := b :: d') in *.
      pose proof (fresh camel os fs r p PK s args DS AR d GB) as VC.
      destruct (terminates camel os fs r p PK _ _ _ _ VC PT rank PR) as [(m & rest & HP)|[(e & HF)|(x & [k HX])]].
      + destruct (parses_encodes camel os fs r p PK _ _ _ _ VC PT True (or_introl I) _ _ HP) as (w & EW & EN).
        apply (proj2 (proj2 (eats_enc camel r True))) in EN; auto.
        destruct (IH rest) as (ms & o & R).
        * apply (f_equal (@List.length _)) in EW. rewrite app_length in EW. unfold blen in EN. lia.
        * rewrite EW in GB. apply goBytes_app in GB. tauto.
        * exists (m :: ms), o. eapply R_next; eauto. discriminate.
      + exists [], (Some e). apply R_error; auto. discriminate.
      + exfalso. apply (never_panics camel os fs r p PK _ _ _ _ VC NA k x). apply HX. lia. }
  intros GB. eapply H; eauto.
Qed.
Print Assumptions C82_ends.

(** Two points, and a third with a coordinate out of range. *)
Definition pointF (x y : Z) : amap value := [("X", VInt x); ("Y", VInt y)].
Lemma point_selfDelimiting : selfDelimiting demoR point.
Proof.
  assert (R : forall s', reaches demoR exposed point s' -> s' = point).
  { intros s' R. induction R as [|s1 m nm s2 R IH I J E]; auto. subst s1. cbn in I. destruct I as [<-|[<-|[]]]; cbn in J; tauto. }
  intros s' m RE I. apply R in RE as ->. cbn in I. destruct I as [<-|[<-|[]]]; reflexivity.
Qed.
Example C82_case : defines demo point /\ ctxValues camelX demoR point [] /\ selfDelimiting demoR point /\ roomyFiles demo demoR /\
  eatsMs (Constant demoR) (Struct demoR) (members_of point) /\
  madeOf camelX demoR point [] [[5; 1]; [6; 2]] [pointF 5 1; pointF 6 2] /\
  reads camelX demoR demoP point [] [5; 1; 6; 2; 1; 4] [pointF 5 1; pointF 6 2] (Some "integer constraint violated").
Proof.
  assert (P : forall data m rest, goBytes data -> (exists n, decStruct camelX demoR n point (blank camelX (Constant demoR) point) (contextsOf point []) data = Ok (m, rest)) ->
    parses camelX demoP point (blank camelX (Constant demoR) point) data [] m rest).
  { intros data m rest GB H. now apply (parses_dec camelX osX demo demoR demoP demo_package _ _ _ _ (point_call data GB)). }
  assert (R : reads camelX demoR demoP point [] [5; 1; 6; 2] [pointF 5 1; pointF 6 2] None).
  { eapply R_next with (rest := [6; 2]); [discriminate|apply P; [apply bytes_ok; vm_compute; reflexivity|exists 3%nat; vm_compute; reflexivity]|].
    eapply R_next with (rest := []); [discriminate|apply P; [apply bytes_ok; vm_compute; reflexivity|exists 3%nat; vm_compute; reflexivity]|constructor]. }
  split; [exact demo_point|]. split; [constructor|]. split; [exact point_selfDelimiting|]. split; [right; exact demo_narrow|].
  split; [apply EatsMs_here; constructor; constructor; reflexivity|]. split.
  - assert (GB : goBytes [5; 1]) by (apply bytes_ok; vm_compute; reflexivity).
    assert (M : forall x y, goBytes [x; y] -> (exists n, decStruct camelX demoR n point (blank camelX (Constant demoR) point) (contextsOf point []) [x; y] = Ok (pointF x y, [])) ->
      message camelX demoR point [] [x; y] (pointF x y)).
    { intros x y G H. destruct (C12_accepted_shape camelX osX demo demoR demoP demo_package _ _ _ _ (point_call _ G) demo_ptr _ _ (P _ _ _ G H)) as (w & E & X).
      rewrite app_nil_r in E. subst w. exact X. }
    split; [|intros [E|[E|[]]]; discriminate].
    constructor; [apply M; [auto|exists 3%nat; vm_compute; reflexivity]|].
    constructor; [apply M; [apply bytes_ok; vm_compute; reflexivity|exists 3%nat; vm_compute; reflexivity]|constructor].
  - eapply R_next with (rest := [6; 2; 1; 4]); [discriminate|apply P; [apply bytes_ok; vm_compute; reflexivity|exists 3%nat; vm_compute; reflexivity]|].
    eapply R_next with (rest := [1; 4]); [discriminate|apply P; [apply bytes_ok; vm_compute; reflexivity|exists 3%nat; vm_compute; reflexivity]|].
    apply R_error; [discriminate|].
    assert (GB : goBytes [1; 4]) by (apply bytes_ok; vm_compute; reflexivity).
    apply (fails_dec camelX osX demo demoR demoP demo_package _ _ _ _ (point_call [1; 4] GB)). exists 3%nat. vm_compute. reflexivity.
Qed.
