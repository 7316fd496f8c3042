(** What a caller sees of memory around a call of a generated method. *)
From Coq Require Import ZArith String List Bool.
From Verif Require Import Base Ast InspectModel GoLang GoMem PackageSpec.
Import ListNotations.
Open Scope string_scope.
Open Scope list_scope.
Open Scope Z_scope.

(** [hd] is a slice holding the bytes [data]. *)
Definition holdsBytes (H : heap) (hd : hval) (data : bytes) : Prop :=
  exists base off cap, hd = HSlice base off (List.length data) cap /\ (List.length data <= cap)%nat /\
    (data = [] \/ exists cells, nth_error H base = Some (OArray cells) /\ firstn (List.length data) (skipn off cells) = map HInt data).
(** [hv] points to a struct of integers. *)
Definition holdsInts (H : heap) (hv : hval) (v : value) : Prop :=
  exists l ty hfs fs, hv = HPtr l /\ v = VStruct ty fs /\ nth_error H l = Some (OStruct ty hfs) /\
    Forall2 (fun g f => fst g = fst f /\ exists z, snd g = HInt z /\ snd f = VInt z) hfs fs.

(** A slice is within another one: the same array, no element outside. *)
Definition within (hv hd : hval) : Prop :=
  match hv, hd with
  | HSlice b o n _, HSlice b' o' n' _ => b = b' /\ (o' <= o)%nat /\ (o + n <= o' + n')%nat
  | _, _ => False
  end.

(** The receiver before the call, as far as the parser looks at it: integers and
    strings; where its pointers and slices lead does not matter. *)
Fixpoint shallow (hv : hval) : value :=
  match hv with
  | HInt z => VInt z
  | HStr s => VStr s
  | HArr l => VList (map shallow l)
  | _ => VNil
  end.
Definition shallowFields (hfs : amap hval) : amap value := map (fun f => (fst f, shallow (snd f))) hfs.
(** The pointers and slices it holds. *)
Fixpoint refs (hv : hval) : list hval :=
  match hv with
  | HInt _ | HStr _ => []
  | HArr l => flat_map refs l
  | _ => [hv]
  end.
Definition fieldRefs (hfs : amap hval) : list hval := flat_map (fun f => refs (snd f)) hfs.

(** The call [x.Parse(data, args...)] with [x] at [l]. *)
Record memCall (camel : string -> string) (H : heap) (s : struct) (l : loc) (hfs : amap hval) (hd : hval) (data : bytes)
    (hargs : list hval) (args : list value) : Prop := {
  mc_recv : nth_error H l = Some (OStruct (camel (sname s)) hfs);
  mc_data : holdsBytes H hd data;
  mc_args : Forall2 (holdsInts H) hargs args }.

(** It ends with memory [H'] and the result [res], whatever the bound beyond some
    point. *)
Definition memEnds (pl : platform) (p : program) (H : heap) (l : loc) (hd : hval) (hargs : list hval) (H' : heap) (res : hres) : Prop :=
  exists n0, forall n, (n0 <= n)%nat -> hcallMethod pl p n H (HPtr l) hd hargs = (H', res).
(** The same for [ParseX(data, args...)]. *)
Definition newEndsMem (pl : platform) (p : program) (ty : string) (H : heap) (hd : hval) (hargs : list hval) (H' : heap) (res : hres) : Prop :=
  exists n0, forall n, (n0 <= n)%nat -> hcallCtor pl p n ty H hd hargs = (H', res).

(** Of the objects there were, only that at [l] may have changed. *)
Definition writesOnly (l : loc) (H H' : heap) : Prop :=
  (List.length H <= List.length H')%nat /\ forall k, (k < List.length H)%nat -> k <> l -> nth_error H' k = nth_error H k.
Definition writesNothing (H H' : heap) : Prop :=
  (List.length H <= List.length H')%nat /\ forall k, (k < List.length H)%nat -> nth_error H' k = nth_error H k.

(** [hv] holds the value [v], all in objects allocated since there were [n].  For
    nil it may hold one of the [stale] values. *)
Section Made.
Variable n : nat.
Variable H : heap.
Variable stale : list hval.
Inductive made : hval -> value -> Prop :=
| made_int z : made (HInt z) (VInt z)
| made_str s : made (HStr s) (VStr s)
| made_nil : made HNil VNil
| made_stale hv : In hv stale -> made hv VNil
| made_struct l ty hfs fs :
    (n <= l)%nat -> nth_error H l = Some (OStruct ty hfs) -> madeFields hfs fs -> made (HPtr l) (VStruct ty fs)
| made_array hvs vs : madeAll hvs vs -> made (HArr hvs) (VList vs)
| made_slice base off len cap cells vs :
    (n <= base)%nat -> nth_error H base = Some (OArray cells) -> (len <= cap)%nat -> (off + cap <= List.length cells)%nat ->
    madeAll (firstn len (skipn off cells)) vs -> made (HSlice base off len cap) (VList vs)
with madeAll : list hval -> list value -> Prop :=
| mades_nil : madeAll [] []
| mades_cons hv v hvs vs : made hv v -> madeAll hvs vs -> madeAll (hv :: hvs) (v :: vs)
with madeFields : amap hval -> amap value -> Prop :=
| madef_nil : madeFields [] []
| madef_cons f hv v hfs fs : made hv v -> madeFields hfs fs -> madeFields ((f, hv) :: hfs) ((f, v) :: fs).
End Made.

(** Following fields and elements from [hv] one comes to the object [l]. *)
Inductive step : Type := Field (f : string) | Elem (i : nat).
Inductive leads (H : heap) : hval -> list step -> loc -> Prop :=
| leads_ptr l : leads H (HPtr l) [] l
| leads_slice base off len cap : leads H (HSlice base off len cap) [] base
| leads_field l ty hfs f hv w k :
    nth_error H l = Some (OStruct ty hfs) -> alookup f hfs = Some hv -> leads H hv w k -> leads H (HPtr l) (Field f :: w) k
| leads_array hvs i hv w k : nth_error hvs i = Some hv -> leads H hv w k -> leads H (HArr hvs) (Elem i :: w) k
| leads_elem base off len cap cells i hv w k :
    nth_error H base = Some (OArray cells) -> nth_error (firstn len (skipn off cells)) i = Some hv -> leads H hv w k ->
    leads H (HSlice base off len cap) (Elem i :: w) k.
(** One way only leads to each object. *)
Definition tree (H : heap) (hv : hval) : Prop :=
  forall w1 w2 l, leads H hv w1 l -> leads H hv w2 l -> w1 = w2.
