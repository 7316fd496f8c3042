(** Positions in a source that need not be UTF-8. *)
From Coq Require Import ZArith Ascii List.
From Verif Require Import Base SyntaxSpec ReportSpec.
Import ListNotations.
Open Scope list_scope.
Open Scope Z_scope.

(** The characters of a text, with the number of bytes of each: encodings of code
    points, and single bytes at which no such encoding begins (as -1). *)
Inductive characters : list ascii -> list (Z * nat) -> Prop :=
| ch_none : characters [] []
| ch_point c b l : scalar c -> characters b l -> characters (utf8_1 c ++ b) ((c, List.length (utf8_1 c)) :: l)
| ch_byte x b l : (forall c b', scalar c -> x :: b <> utf8_1 c ++ b') -> characters b l -> characters (x :: b) ((-1, 1%nat) :: l).

Definition bytesIn (l : list (Z * nat)) : Z := fold_right (fun x n => Z.of_nat (snd x) + n) 0 l.

(** The offset [o], the line [l] and the column [c] name the same place: that after
    the characters [a].  A place in front of a newline may be given as column zero
    of the next line. *)
Definition placeBytes (data : list ascii) (o l c : Z) : Prop :=
  exists a b, characters data (a ++ b) /\ o = bytesIn a /\
    ((l = lineAfter (map fst a) /\ c = colAfter (map fst a)) \/
     (l = lineAfter (map fst a) + 1 /\ c = 0 /\ exists b', b = (10, 1%nat) :: b')).
