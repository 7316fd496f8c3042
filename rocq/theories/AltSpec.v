(** Different ways to write the same members. *)
From Coq Require Import ZArith String List Bool.
From Verif Require Import Base Ast InspectSpec.
Import ListNotations.
Open Scope string_scope.
Open Scope list_scope.
Open Scope Z_scope.

Section Alt.
Variable cv : string -> option Z.   (* the values of constants *)

Definition sameSet (l l' : intlist) : Prop := forall x, in_list cv l x <-> in_list cv l' x.
Definition sameCount (i i' : integer) : Prop := exists k, int_value cv i = Some k /\ int_value cv i' = Some k.

(** What a constraint lets through, if there is one. *)
Definition allowed (o : option intlist) (x : Z) : Prop := match o with None => True | Some l => in_list cv l x end.

(** [char] is [u8]; of a constraint it counts which integers of the size it lets through. *)
Inductive altBase : type -> type -> Prop :=
| AB_same : forall t, altBase t t
| AB_char : forall o, (forall x, 0 <= x < 2 ^ 8 -> allowed o x) -> altBase (TInt 8 o) TChar
| AB_byte : forall o, (forall x, 0 <= x < 2 ^ 8 -> allowed o x) -> altBase TChar (TInt 8 o)
| AB_int : forall sz o o', 0 <= sz -> (forall x, 0 <= x < 2 ^ sz -> allowed o x <-> allowed o' x) -> altBase (TInt sz o) (TInt sz o').
Inductive altLen : lconstraint -> lconstraint -> Prop :=
| AL_same : forall l, altLen l l
| AL_left : forall i i', sameCount i i' -> altLen (LLeftover i) (LLeftover i').
(** An array without a length is one that leaves nothing. *)
Inductive altType : type -> type -> Prop :=
| AT_base : forall t t', altBase t t' -> altType t t'
| AT_fixed : forall b b' i i', altBase b b' -> sameCount i i' -> altType (TFixed b i) (TFixed b' i')
| AT_rest : forall b b', altBase b b' -> altType (TVar b None) (TVar b' None)
| AT_var : forall b b' l l', altBase b b' -> altLen l l' -> altType (TVar b (Some l)) (TVar b' (Some l'))
| AT_all : forall b b' i, altBase b b' -> int_value cv i = Some 0 -> altType (TVar b None) (TVar b' (Some (LLeftover i)))
| AT_none : forall b b' i, altBase b b' -> int_value cv i = Some 0 -> altType (TVar b (Some (LLeftover i))) (TVar b' None).
Inductive altOpt : option lconstraint -> option lconstraint -> Prop :=
| AO_none : altOpt None None
| AO_some : forall l l', altLen l l' -> altOpt (Some l) (Some l').
Inductive altLabels : option intlist -> option intlist -> Prop :=
| AC_default : altLabels None None
| AC_list : forall l l', sameSet l l' -> altLabels (Some l) (Some l').
(** A union without a default has an empty one. The name of a union does not matter. *)
Inductive altMember : member -> member -> Prop :=
| AM_field : forall nm t t', altType t t' -> altMember (MField nm t) (MField nm t')
| AM_union : forall u u' tag len len' cs cs', altOpt len len' -> altCases cs cs' -> altMember (MUnion u tag len cs) (MUnion u' tag len' cs')
| AM_default : forall u u' tag len len' cs cs', altOpt len len' -> altCases cs cs' -> (forall ms, ~ In (UCase None ms) cs) ->
    altMember (MUnion u tag len cs) (MUnion u' tag len' (cs' ++ [UCase None []]))
| AM_eos : altMember MEOS MEOS
| AM_fail : altMember MFail MFail
| AM_ignore : altMember MIgnore MIgnore
with altMembers : list member -> list member -> Prop :=
| AMs_nil : altMembers [] []
| AMs_cons : forall m m' ms ms', altMember m m' -> altMembers ms ms' -> altMembers (m :: ms) (m' :: ms')
with altCases : list ucase -> list ucase -> Prop :=
| ACs_nil : altCases [] []
| ACs_cons : forall l l' ms ms' cs cs', altLabels l l' -> altMembers ms ms' -> altCases cs cs' -> altCases (UCase l ms :: cs) (UCase l' ms' :: cs').
End Alt.
