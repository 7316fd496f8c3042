(** Go values of the type of a field, all the way down: what a Go program can
    store there. *)
From Coq Require Import ZArith String List Bool.
From Verif Require Import Base Ast InspectModel InspectSpec GoLang WireSpec PackageSpec.
Import ListNotations.
Open Scope string_scope.
Open Scope list_scope.
Open Scope Z_scope.

Section Deep.
Variable camel : string -> string.
Variable r : resolver.

Inductive deep : type -> value -> Prop :=
| dp_int sz cst z : 0 <= z < 2 ^ sz -> deep (TInt sz cst) (VInt z)
| dp_char z : 0 <= z < 256 -> deep TChar (VInt z)
| dp_ptr z : - two63 <= z < two63 -> deep TPtr (VInt z)
| dp_nul b : all_bytes b -> deep TNul (VStr b)
| dp_nil nm : deep (TStruct nm) VNil
| dp_struct nm s fs : Struct r nm = Some s -> Extern s = false ->
    Forall2 (fun f kv => fst kv = camel (fst f) /\ deep (snd f) (snd kv)) (flat_map allFields (members_of s)) fs ->
    deep (TStruct nm) (VStruct (camel nm) fs)
| dp_fixed b i vs : int_value (Constant r) i = Some (blen vs) -> Forall (deep b) vs -> deep (TFixed b i) (VList vs)
| dp_none b l : deep (TVar b l) VNil
| dp_var b l vs : Forall (deep b) vs -> deep (TVar b l) (VList vs).

(** A value of the Go struct generated for [s]. *)
Definition deepStruct (s : struct) (fs : amap value) : Prop :=
  Forall2 (fun f kv => fst kv = camel (fst f) /\ deep (snd f) (snd kv)) (flat_map allFields (members_of s)) fs.
End Deep.

(** One call after the other on the same value: [x.Parse(data1, args1...)],
    [x.Parse(data2, args2...)] and so on, each ending somehow; what [x] holds
    after them. *)
Inductive calledOn (camel : string -> string) (p : program) (s : struct) : amap value -> list (bytes * list value) -> amap value -> Prop :=
| co_none fs0 : calledOn camel p s fs0 [] fs0
| co_call fs0 data args n fs1 v e more fs2 :
    runParse camel p n s fs0 data args = (VStruct (camel (sname s)) fs1, SRet v e) ->
    calledOn camel p s fs1 more fs2 ->
    calledOn camel p s fs0 ((data, args) :: more) fs2.
