(** Positions in a source text, as a user counts them. *)
From Coq Require Import ZArith String Ascii List.
From Verif Require Import Base SyntaxSpec.
Import ListNotations.
Open Scope string_scope.
Open Scope list_scope.
Open Scope Z_scope.

(** The number of newlines among code points, and what follows the last one. *)
Fixpoint newlines (cs : list Z) : Z :=
  match cs with [] => 0 | c :: cs => (if c =? 10 then 1 else 0) + newlines cs end.
Fixpoint lastLine (acc cs : list Z) : list Z :=
  match cs with [] => acc | c :: cs => lastLine (if c =? 10 then [] else acc ++ [c]) cs end.

(** Lines and columns are counted from one. *)
Definition lineAfter (cs : list Z) : Z := 1 + newlines cs.
Definition colAfter (cs : list Z) : Z := 1 + Z.of_nat (List.length (lastLine [] cs)).

(** The offset [o], the line [l] and the column [c] name the same place in the
    text with the code points [cs]. *)
Definition place (cs : list Z) (o l c : Z) : Prop :=
  exists a b, cs = a ++ b /\ o = Z.of_nat (List.length (utf8 a)) /\ l = lineAfter a /\ c = colAfter a.
(** The same, but a place in front of a newline is given as column zero of the
    next line. *)
Definition placeLax (cs : list Z) (o l c : Z) : Prop :=
  exists a b, cs = a ++ b /\ o = Z.of_nat (List.length (utf8 a)) /\
    ((l = lineAfter a /\ c = colAfter a) \/ (l = lineAfter a + 1 /\ c = 0 /\ exists b', b = 10 :: b')).

(** * What is said about a source *)

(** Literals that are found but have no value, and the complaint. *)
Inductive badNumber : list Z -> string -> Prop :=
| bad_octal : forall c ds, c = 56 \/ c = 57 -> forallb digit10 ds = true ->
    badNumber (points "0" ++ c :: ds) "invalid syntax"
| large_hex : forall ds, ds <> [] -> forallb digit16 ds = true -> 2 ^ 63 <= valueOf 16 ds ->
    badNumber (points "0x" ++ ds) "value out of range"
| large_octal : forall ds, ds <> [] -> forallb digit8 ds = true -> 2 ^ 63 <= valueOf 8 ds ->
    badNumber (points "0" ++ ds) "value out of range"
| large_decimal : forall ds, hd 0 ds <> 48 -> forallb digit10 ds = true -> 2 ^ 63 <= valueOf 10 ds ->
    badNumber ds "value out of range".

(** At the offset [o] stands such a literal, and the message [t] names it. *)
Definition saysNumber (data : list ascii) (o : Z) (t : string) : Prop :=
  exists a ds b complaint, data = a ++ utf8 ds ++ b /\ o = Z.of_nat (List.length a) /\ badNumber ds complaint /\
    t = ("strconv.ParseInt: parsing """ ++ named ds ++ """: " ++ complaint)%string.

(** What stands at the offset [o] does not start with the encoding of a code
    point. *)
Definition saysEncoding (data : list ascii) (o : Z) (t : string) : Prop :=
  t = "invalid encoding" /\
  exists a b, data = a ++ b /\ o = Z.of_nat (List.length a) /\ b <> [] /\
    forall c b', scalar c -> b <> utf8_1 c ++ b'.

(** The words after "expected:". *)
Definition saysExpected (words : list string) (t : string) : Prop :=
  exists front last, words = front ++ [last] /\
    t = ("no match found, expected: " ++
         match front with [] => last | _ => String.concat ", " front ++ " or " ++ last end)%string.
