(** Two notions about trunnel source: changing the separators of a text, and the
    shape of parsed files.  Written without reference to the parser. *)
From Coq Require Import ZArith String Ascii List Bool.
From Verif Require Import Base Ast SyntaxSpec.
Import ListNotations.
Open Scope string_scope.
Open Scope list_scope.
Open Scope Z_scope.

(** * Separators *)

(** Non-empty sequences of blanks and whole comments. *)
Inductive filler : list Z -> Prop :=
| filler_char : forall c, In c [32; 9; 13; 10] -> filler [c]
| filler_block : forall body,
    (forall a b, body ++ points "*" <> a ++ points "*/" ++ b) ->
    filler (points "/*" ++ body ++ points "*/")
| filler_line : forall body, ~ In 10 body -> filler (points "//" ++ body ++ [10])
| filler_app : forall g1 g2, filler g1 -> filler g2 -> filler (g1 ++ g2).

(** Like a filler, but a line comment may end with the text. *)
Inductive lastFiller : list Z -> Prop :=
| last_filler : forall g, filler g -> lastFiller g
| last_line : forall body, ~ In 10 body -> lastFiller (points "//" ++ body)
| last_app : forall g1 g2, filler g1 -> lastFiller g2 -> lastFiller (g1 ++ g2).

(** The same text with other separators.  Slashes occur in comments only. *)
Inductive respaced : list Z -> list Z -> Prop :=
| re_nil : respaced [] []
| re_char : forall c i i', ~ In c [32; 9; 13; 10; 47] -> respaced i i' -> respaced (c :: i) (c :: i')
| re_gap : forall g g' i i', filler g -> filler g' -> respaced i i' -> respaced (g ++ i) (g' ++ i')
| re_last : forall g g', lastFiller g -> lastFiller g' -> respaced g g'.

(** * The shape of files *)

Definition isIdentifier (n : string) : Prop :=
  match points n with
  | c :: cs => first_ c = true /\ forallb later_ cs = true
  | [] => False
  end.
Definition isConstant (n : string) : Prop :=
  match points n with
  | c :: cs => upper c = true /\ forallb upperLater cs = true
  | [] => False
  end.
Definition isLiteral (v : Z) : Prop := 0 <= v < 2 ^ 63.
Definition isSize (n : Z) : Prop := In n [8; 16; 32; 64].

Definition goodInt (i : integer) : Prop :=
  match i with IConst n => isConstant n | ILit v => isLiteral v end.
Definition goodRange (g : irange) : Prop :=
  goodInt (rlow g) /\ match rhigh g with Some h => goodInt h | None => True end.
Definition goodList (l : intlist) : Prop := l <> [] /\ Forall goodRange l.
Definition goodRef (x : idref) : Prop :=
  match x with mkRef s n => (s = "" \/ isIdentifier s) /\ isIdentifier n end.
Definition goodLength (l : lconstraint) : Prop :=
  match l with LRef x => goodRef x | LLeftover i => goodInt i end.

(** Elements of arrays. *)
Inductive element : type -> Prop :=
| el_int : forall n, isSize n -> element (TInt n None)
| el_char : element TChar
| el_struct : forall n, isIdentifier n -> element (TStruct n).

(** A constant in the brackets is a fixed size, not a length. *)
Definition variable (l : lconstraint) : Prop :=
  match l with LRef (mkRef s n) => s = "" -> ~ isConstant n | LLeftover _ => True end.

(** Fields allowed everywhere. *)
Inductive goodField : member -> Prop :=
| gf_int : forall n t, isIdentifier n -> isSize t -> goodField (MField n (TInt t None))
| gf_range : forall n t l, isIdentifier n -> isSize t -> goodList l -> goodField (MField n (TInt t (Some l)))
| gf_nul : forall n, isIdentifier n -> goodField (MField n TNul)
| gf_struct : forall n s, isIdentifier n -> isIdentifier s -> goodField (MField n (TStruct s))
| gf_fixed : forall n t i, isIdentifier n -> element t -> goodInt i -> goodField (MField n (TFixed t i))
| gf_var : forall n t l, isIdentifier n -> element t -> goodLength l -> variable l ->
    goodField (MField n (TVar t (Some l))).
Inductive remainder : member -> Prop :=
| remainder_array : forall n t, isIdentifier n -> element t -> remainder (MField n (TVar t None)).

Inductive goodBody : list member -> Prop :=
| gb_fields : forall ms, Forall goodField ms -> goodBody ms
| gb_remainder : forall ms m, Forall goodField ms -> remainder m -> goodBody (ms ++ [m])
| gb_ignore : forall ms, Forall goodField ms -> goodBody (ms ++ [MIgnore])
| gb_fail : goodBody [MFail].
Definition goodCase (c : ucase) : Prop :=
  match c with
  | UCase l ms => match l with Some l => goodList l | None => True end /\ goodBody ms
  end.
Inductive goodMember : member -> Prop :=
| gm_field : forall m, goodField m -> goodMember m
| gm_ptr : forall n, isIdentifier n -> goodMember (MField n TPtr)
| gm_union : forall n t l cs, isIdentifier n -> goodRef t ->
    match l with Some l => goodLength l | None => True end -> Forall goodCase cs ->
    goodMember (MUnion n t l cs).
Inductive goodMembers : list member -> Prop :=
| gs_members : forall ms, Forall goodMember ms -> goodMembers ms
| gs_remainder : forall ms m, Forall goodMember ms -> remainder m -> goodMembers (ms ++ [m])
| gs_eos : forall ms, Forall goodMember ms -> goodMembers (ms ++ [MEOS]).

Definition goodStruct (s : struct) : Prop :=
  isIdentifier (sname s) /\ Forall isIdentifier (scontexts s) /\
  match smembers s with Some ms => goodMembers ms | None => True end.
Definition goodConstant (c : constant) : Prop := isConstant (kname c) /\ isLiteral (kvalue c).
Definition goodContextField (f : string * type) : Prop :=
  isIdentifier (fst f) /\ exists n, isSize n /\ snd f = TInt n None.
Definition goodContext (c : context) : Prop :=
  isIdentifier (cname c) /\ Forall goodContextField (cmembers c).
Definition goodPragma (p : pragma) : Prop :=
  isIdentifier (ptype p) /\ poptions p <> [] /\ Forall isIdentifier (poptions p).

Definition shaped (f : file) : Prop :=
  Forall goodConstant (fconstants f) /\ Forall goodContext (fcontexts f) /\
  Forall goodStruct (fstructs f) /\ Forall goodPragma (fpragmas f).

(** * Integer literals *)
Inductive numeral : list Z -> Z -> Prop :=
| numeral_dec : forall ds, ds <> [] -> forallb digit10 ds = true -> hd 0 ds <> 48 -> numeral ds (valueOf 10 ds)
| numeral_oct : forall ds, ds <> [] -> forallb digit8 ds = true -> numeral (points "0" ++ ds) (valueOf 8 ds)
| numeral_hex : forall ds, ds <> [] -> forallb digit16 ds = true -> numeral (points "0x" ++ ds) (valueOf 16 ds)
| numeral_zero : numeral (points "0") 0.

(** The source of one constant declaration. *)
Definition constSource (n : string) (lit : list Z) : list Z :=
  points "const " ++ points n ++ points " = " ++ lit ++ points ";".

(** * Braces *)

(** Opening braces in a text; and those a file needs: one for each struct with
    members, each context and each union. *)
Definition braces (cs : list Z) : Z := Z.of_nat (count_occ Z.eq_dec cs 123).
Definition isUnion (m : member) : bool := match m with MUnion _ _ _ _ => true | _ => false end.
Definition unions (ms : list member) : Z := Z.of_nat (length (filter isUnion ms)).
Definition structBraces (s : struct) : Z := match smembers s with Some ms => 1 + unions ms | None => 0 end.
Definition total (l : list Z) : Z := fold_right Z.add 0 l.
Definition fileBraces (f : file) : Z :=
  Z.of_nat (length (fcontexts f)) + total (map structBraces (fstructs f)).
