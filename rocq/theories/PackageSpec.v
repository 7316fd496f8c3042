(** Vocabulary for calling a generated package: what Go values the caller can
    pass in, and what the outcome of a call is. *)
From Coq Require Import ZArith String List Bool.
From Verif Require Import Base Ast IntervalsModel InspectModel InspectSpec InspectProofs GoLang GenModel GenCheck WireSpec.
Import ListNotations.
Open Scope string_scope.
Open Scope list_scope.
Open Scope Z_scope.

(** A byte slice. *)
Definition goBytes (b : bytes) : Prop := all_bytes b /\ blen b < two63.

(** An unsigned integer of [sz] bits. *)
Definition uintN (sz : Z) (v : value) : Prop := exists z, v = VInt z /\ 0 <= z < 2 ^ sz.

Section Values.
Variable camel : string -> string.
Variable r : resolver.

(** A value of the Go struct generated for a context: one integer per field. *)
Definition ctxValue (c : context) (v : value) : Prop :=
  exists cf, v = VStruct (camel (cname c)) cf /\
    Forall2 (fun f kv => fst kv = camel (fst f) /\ forall sz cst, snd f = TInt sz cst -> uintN sz (snd kv))
            (cmembers c) cf.

(** Arguments for the contexts of a struct. *)
Definition ctxValues (s : struct) (args : list value) : Prop :=
  Forall2 (fun x v => exists c, Context r x = Some c /\ ctxValue c v) (scontexts s) args.

(** A value of the Go type of a field. *)
Definition goValue (t : type) (v : value) : Prop :=
  match t with
  | TInt sz _ => uintN sz v
  | TChar => uintN 8 v
  | TPtr => exists z, v = VInt z /\ - two63 <= z < two63
  | TNul => exists b, v = VStr b
  | TStruct nm => v = VNil \/ exists fs, v = VStruct (camel nm) fs
  | TFixed _ i => exists vs, v = VList vs /\ int_value (Constant r) i = Some (blen vs)
  | TVar _ _ => v = VNil \/ exists vs, v = VList vs
  end.

(** A value of the Go struct generated for [s], whatever it holds. *)
Definition goStruct (s : struct) (fs : amap value) : Prop :=
  Forall2 (fun f kv => fst kv = camel (fst f) /\ goValue (snd f) (snd kv))
          (flat_map allFields (members_of s)) fs.
End Values.

(** The package [p] was generated from the files [fs], which resolve to [r] and
    pass the static checks of GenCheck.v. *)
Record package (camel : string -> string) (os : nat -> orders) (fs : list file) (r : resolver) (p : program) : Prop := {
  pk_orders : all_valid os;
  pk_resolved : NewResolverFiles os fs = Ok r;
  pk_generated : Marshallers camel os fs = Ok p;
  pk_checked : checkFiles camel r fs = true }.

(** [s] is one of the structs defined in [fs]. *)
Definition defines (fs : list file) (s : struct) : Prop :=
  Extern s = false /\ exists f, In f fs /\ In s (fstructs f).

(** The calls a client makes, run for at most [n] nested calls and iterations
    of each loop: [x.Parse(data, args...)] on an [x] holding [fs], and
    [ParseX(data, args...)]. *)
Definition runParse (camel : string -> string) (p : program) (n : nat) (s : struct) (fs : amap value) (data : bytes) (args : list value)
  : value * sres :=
  callMethod p n (VStruct (camel (sname s)) fs) (VBytes data) args.
Definition runNew (camel : string -> string) (p : program) (n : nat) (s : struct) (data : bytes) (args : list value) : sres :=
  callCtor p n (camel (sname s)) (VBytes data) args.

(** A call that a client can make. *)
Record validCall (camel : string -> string) (fs : list file) (r : resolver) (s : struct) (fs0 : amap value) (data : bytes) (args : list value) : Prop := {
  vc_defined : defines fs s;
  vc_args : ctxValues camel r s args;
  vc_recv : goStruct camel r s fs0;
  vc_data : goBytes data }.

(** How the call [x.Parse(data, args...)] ends, whatever the bound beyond some
    point: it returns a slice and no error, leaving the receiver with fields
    [fs1]; it returns an error; it panics; it never ends. *)
Section Ends.
Variable camel : string -> string.
Variable p : program.
Variable s : struct.
Variable fs0 : amap value.
Variable data : bytes.
Variable args : list value.
Definition eventually (P : value * sres -> Prop) : Prop :=
  exists n0, forall n, (n0 <= n)%nat -> P (runParse camel p n s fs0 data args).
Definition parses (fs1 : amap value) (rest : bytes) : Prop :=
  eventually (fun x => x = (VStruct (camel (sname s)) fs1, SRet (VBytes rest) VNil)).
Definition fails (e : string) : Prop := eventually (fun x => snd x = SRet VNil (VErr e)).
Definition panics (m : string) : Prop := eventually (fun x => snd x = SPanic m).
Definition neverEnds : Prop := forall n, snd (runParse camel p n s fs0 data args) = SFuel.
End Ends.

(** The values of the contexts, by name. *)
Definition contextsOf (s : struct) (args : list value) : amap value := combine (scontexts s) args.
