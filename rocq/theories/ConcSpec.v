(** What goroutines that parse at the same time are to do. *)
From Coq Require Import ZArith String List Bool.
From Verif Require Import Base Ast IntervalsModel InspectModel InspectSpec GoLang GenModel GenDecode GenSim WireSpec PackageSpec GoMem MemSpec GoConc.
Import ListNotations.
Open Scope string_scope.
Open Scope list_scope.
Open Scope Z_scope.

(** A goroutine that makes one call, and what the values it passes stand for: of
    the method Parse on a receiver with the fields given, or of the function
    ParseX if there is no receiver. *)
Record job := {
  jstruct : struct;
  jrecv : option (loc * amap hval);
  jslice : hval; jdata : bytes;
  jctxs : list hval; jargs : list value }.

Section Jobs.
Variable camel : string -> string.
Variable fs : list file.
Variable r : resolver.
Variable p : program.
Notation T s := (camel (sname s)).

Definition started (n : nat) (j : job) : thread :=
  match jrecv j with
  | Some (l, _) => tcallMethod p n (HPtr l) (jslice j) (jctxs j) TEnd
  | None => tcallCtor p n (T (jstruct j)) (jslice j) (jctxs j) TEnd
  end.

(** The fields of the receiver before the call, as far as Parse can see them. *)
Definition fieldsBefore (j : job) : amap value :=
  match jrecv j with
  | Some (_, hfs) => shallowFields hfs
  | None => blank camel (Constant r) (jstruct j)
  end.
(** The arguments are what they are to be, in memory [H]. *)
Definition jobOk (H : heap) (j : job) : Prop :=
  validCall camel fs r (jstruct j) (fieldsBefore j) (jdata j) (jargs j) /\
  match jrecv j with
  | Some (l, hfs) => nth_error H l = Some (OStruct (T (jstruct j)) hfs)
  | None => True
  end /\
  holdsBytes H (jslice j) (jdata j) /\ Forall2 (holdsInts H) (jctxs j) (jargs j).
(** By itself the call would return, and what. *)
Definition jobParses (j : job) (fs1 : amap value) (rest : bytes) : Prop :=
  parses camel p (jstruct j) (fieldsBefore j) (jdata j) (jargs j) fs1 rest.
Definition jobFails (j : job) (e : string) : Prop := fails camel p (jstruct j) (fieldsBefore j) (jdata j) (jargs j) e.
Definition jobEnds (j : job) : Prop := (exists fs1 rest, jobParses j fs1 rest) \/ exists e, jobFails j e.

(** No two have the same receiver.  The rest they may share. *)
Definition receiver (j : job) (l : loc) : Prop := exists hfs, jrecv j = Some (l, hfs).
Definition ownReceivers (jobs : list job) : Prop :=
  forall i k a b l, i <> k -> nth_error jobs i = Some a -> nth_error jobs k = Some b -> receiver a l -> receiver b l -> False.

(** What a goroutine has when it ended, in memory [H], there having been [n]
    objects at first: what its call would return by itself. *)
Definition answered (n : nat) (H : heap) (j : job) (res : hres) : Prop :=
  (exists fs1 rest, jobParses j fs1 rest /\
    match jrecv j with
    | Some (l, hfs) => exists hv hfs1, res = HRet hv HNil /\ holdsBytes H hv rest /\ (rest = [] \/ within hv (jslice j)) /\
        nth_error H l = Some (OStruct (T (jstruct j)) hfs1) /\ madeFields n H (fieldRefs hfs) hfs1 fs1
    | None => exists k, res = HRet (HPtr k) HNil /\ made n H [] (HPtr k) (VStruct (T (jstruct j)) fs1)
    end) \/
  (exists e, jobFails j e /\ res = HRet HNil (HErr e)).

(** What it filled in: the receiver, or what ParseX returned. *)
Definition target (j : job) (res : hres) : hval :=
  match jrecv j with
  | Some (l, _) => HPtr l
  | None => match res with HRet v _ => v | _ => HNil end
  end.
(** The receiver did not point to anything before the call. *)
Definition unused (j : job) : Prop :=
  match jrecv j with
  | Some (_, hfs) => forall x, In x (fieldRefs hfs) -> x = HNil
  | None => True
  end.

(** At every moment: nobody is about to race, those that ended have their answer,
    what was there is as it was but for receivers, and nothing is shared. *)
Definition fine (pl : platform) (H0 : heap) (jobs : list job) (P : pool) : Prop :=
  ~ race pl (ptypes p) P /\
  List.length (snd P) = List.length jobs /\
  (forall i j res, nth_error jobs i = Some j -> nth_error (snd P) i = Some (TEnd res) -> answered (List.length H0) (fst P) j res) /\
  (List.length H0 <= List.length (fst P))%nat /\
  (forall l, (l < List.length H0)%nat -> (forall j, In j jobs -> ~ receiver j l) -> nth_error (fst P) l = nth_error H0 l) /\
  (forall i j a b ra rb w1 w2 l, i <> j -> nth_error jobs i = Some a -> nth_error jobs j = Some b ->
    nth_error (snd P) i = Some (TEnd ra) -> nth_error (snd P) j = Some (TEnd rb) -> unused a -> unused b ->
    leads (fst P) (target a ra) w1 l -> leads (fst P) (target b rb) w2 l -> False).
End Jobs.
