(** Structs made of integers, each of which may have any value. *)
From Coq Require Import ZArith String List Bool.
From Verif Require Import Base Ast InspectSpec AltSpec.
Import ListNotations.
Open Scope string_scope.
Open Scope list_scope.
Open Scope Z_scope.

Section Plain.
Variable cv : string -> option Z.        (* the values of constants *)
Variable sv : string -> option struct.   (* the structs *)

(** [plain t k]: [t] takes [k] bytes, whatever they are. *)
Inductive plain : type -> Z -> Prop :=
| PL_int : forall sz o, 0 <= sz -> (forall x, 0 <= x < 2 ^ sz -> allowed cv o x) -> plain (TInt sz o) (sz / 8)
| PL_char : plain TChar 1
| PL_ptr : plain TPtr 0
| PL_struct : forall nm s k, sv nm = Some s -> Extern s = false -> plains (members_of s) k -> plain (TStruct nm) k
| PL_array : forall b i n k, plain b k -> int_value cv i = Some n -> 0 <= n -> plain (TFixed b i) (n * k)
with plains : list member -> Z -> Prop :=
| PL_nil : plains [] 0
| PL_cons : forall nm t k ms l, plain t k -> plains ms l -> plains (MField nm t :: ms) (k + l).
End Plain.
