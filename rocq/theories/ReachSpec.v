(** How parsing gets to a place in a declaration: which bytes lie ahead and which
    fields have been filled in when a given member or type is about to be parsed.
    Used to say what happens when the bytes ahead do not fit. *)
From Coq Require Import ZArith String List Bool.
From Verif Require Import Base Ast InspectModel InspectSpec GoLang WireSpec.
Import ListNotations.
Open Scope string_scope.
Open Scope list_scope.
Open Scope Z_scope.

(** Bytes taken by an array element in memory: an array of [k] elements can be
    allocated if [k * cell b] is at most 2^48, see [maxAlloc] in GoLang.v. *)
Definition cell (b : type) : Z :=
  match b with TInt sz _ => sz / 8 | TChar => 1 | TNul => 16 | _ => 8 end.

Inductive place := AtMembers (ms : list member) | AtMember (m : member) | AtType (t : type).

Section Reach.
Variable camel : string -> string.
Variable cv : string -> option Z.
Variable sv : string -> option struct.
Variable lenient : Prop.
Notation encMs := (encMs camel cv sv lenient).
Notation encN := (encN camel cv sv lenient).

(** [visits cenv pos pl fs c]: started on the struct [s0] with contexts [cenv0],
    fields [fs0] and bytes [data], parsing gets to [pl] in a struct with contexts
    [cenv] and fields [fs], with [c] ahead in the current extent. *)
Inductive visits (cenv0 : amap value) (s0 : struct) (fs0 : amap value) (data : bytes)
  : amap value -> Z -> place -> amap value -> bytes -> Prop :=
| V_start : visits cenv0 s0 fs0 data cenv0 0 (AtMembers (members_of s0)) fs0 data
| V_member : forall cenv pos ms1 m ms2 fs w c fs1,
    visits cenv0 s0 fs0 data cenv pos (AtMembers (ms1 ++ m :: ms2)) fs (w ++ c) ->
    encMs cenv pos ms1 fs w c fs1 ->
    visits cenv0 s0 fs0 data cenv (pos + blen w) (AtMember m) fs1 c
| V_field : forall cenv pos nm t fs c,
    visits cenv0 s0 fs0 data cenv pos (AtMember (MField nm t)) fs c ->
    visits cenv0 s0 fs0 data cenv pos (AtType t) fs c
| V_case : forall cenv pos u tag cs x cse fs c,
    visits cenv0 s0 fs0 data cenv pos (AtMember (MUnion u tag None cs)) fs c ->
    refers camel cenv fs tag x -> takes cv cs x cse ->
    visits cenv0 s0 fs0 data cenv pos (AtMembers (ucase_members cse)) fs c
| V_case_len : forall cenv pos u tag f cs x cse fs e rest,
    visits cenv0 s0 fs0 data cenv pos (AtMember (MUnion u tag (Some (LRef f)) cs)) fs (e ++ rest) ->
    refers camel cenv fs f (blen e) -> refers camel cenv fs tag x -> takes cv cs x cse ->
    visits cenv0 s0 fs0 data cenv pos (AtMembers (ucase_members cse)) fs e
| V_case_allbut : forall cenv pos u tag i cs x cse fs e rest,
    visits cenv0 s0 fs0 data cenv pos (AtMember (MUnion u tag (Some (LLeftover i)) cs)) fs (e ++ rest) ->
    int_value cv i = Some (blen rest) -> refers camel cenv fs tag x -> takes cv cs x cse ->
    visits cenv0 s0 fs0 data cenv pos (AtMembers (ucase_members cse)) fs e
| V_struct : forall cenv pos nm s cenv' fs c,
    visits cenv0 s0 fs0 data cenv pos (AtType (TStruct nm)) fs c ->
    sv nm = Some s -> Extern s = false -> passes cenv s cenv' ->
    visits cenv0 s0 fs0 data cenv' 0 (AtMembers (members_of s)) (blank camel cv s) c
| V_fixed : forall cenv pos b i k vs fs w c,
    visits cenv0 s0 fs0 data cenv pos (AtType (TFixed b i)) fs (w ++ c) ->
    int_value cv i = Some k -> blen vs < k -> encN cenv pos fs b vs w c ->
    visits cenv0 s0 fs0 data cenv (pos + blen w) (AtType b) fs c
| V_counted : forall cenv pos b f k vs fs w c,
    visits cenv0 s0 fs0 data cenv pos (AtType (TVar b (Some (LRef f)))) fs (w ++ c) ->
    refers camel cenv fs f k -> blen vs < k -> k * cell b <= 2 ^ 48 -> encN cenv pos fs b vs w c ->
    visits cenv0 s0 fs0 data cenv (pos + blen w) (AtType b) fs c
| V_rest : forall cenv pos b vs fs w c,
    visits cenv0 s0 fs0 data cenv pos (AtType (TVar b None)) fs (w ++ c) ->
    c <> [] -> encN cenv pos fs b vs w c ->
    visits cenv0 s0 fs0 data cenv (pos + blen w) (AtType b) fs c
| V_allbut : forall cenv pos b i vs fs w c rest,
    visits cenv0 s0 fs0 data cenv pos (AtType (TVar b (Some (LLeftover i)))) fs (w ++ c ++ rest) ->
    int_value cv i = Some (blen rest) -> c <> [] -> encN cenv pos fs b vs w c ->
    visits cenv0 s0 fs0 data cenv (pos + blen w) (AtType b) fs c.

(** What can be wrong at a place, and the error that is reported. *)
Inductive faulty (cenv : amap value) (pos : Z) : place -> amap value -> bytes -> string -> Prop :=
| F_int_short : forall sz cst fs c, blen c < sz / 8 ->
    faulty cenv pos (AtType (TInt sz cst)) fs c "data too short"
| F_char_short : forall fs, faulty cenv pos (AtType TChar) fs [] "data too short"
| F_constraint : forall sz l fs w x c, bigEndian w x -> blen w = sz / 8 -> ~ in_list cv l x ->
    faulty cenv pos (AtType (TInt sz (Some l))) fs (w ++ c) "integer constraint violated"
| F_nul : forall fs c, ~ In 0 c -> faulty cenv pos (AtType TNul) fs c "could not parse nul-term string"
| F_array_allbut : forall b i k fs c, int_value cv i = Some k -> blen c < k ->
    faulty cenv pos (AtType (TVar b (Some (LLeftover i)))) fs c "data too short"
| F_eos : forall fs c, c <> [] -> faulty cenv pos (AtMember MEOS) fs c "trailing data disallowed"
| F_fail : forall fs c, faulty cenv pos (AtMember MFail) fs c "disallowed case"
| F_union_len : forall u tag f cs k fs c, refers camel cenv fs f k -> blen c < k < 2 ^ 63 ->
    faulty cenv pos (AtMember (MUnion u tag (Some (LRef f)) cs)) fs c "data too short"
| F_union_allbut : forall u tag i cs k fs c, int_value cv i = Some k -> blen c < k ->
    faulty cenv pos (AtMember (MUnion u tag (Some (LLeftover i)) cs)) fs c "data too short"
| F_trailing_len : forall u tag f cs x fs w c rest fs', refers camel cenv fs tag x -> refers camel cenv fs f (blen (w ++ c)) ->
    encCase camel cv sv lenient cenv pos cs x fs w c fs' -> c <> [] ->
    faulty cenv pos (AtMember (MUnion u tag (Some (LRef f)) cs)) fs ((w ++ c) ++ rest) "trailing data disallowed"
| F_trailing_allbut : forall u tag i cs x fs w c rest fs', refers camel cenv fs tag x -> int_value cv i = Some (blen rest) ->
    encCase camel cv sv lenient cenv pos cs x fs w c fs' -> c <> [] ->
    faulty cenv pos (AtMember (MUnion u tag (Some (LLeftover i)) cs)) fs ((w ++ c) ++ rest) "trailing data disallowed".

(** Where a run panics, and with which message.  (Length fields are unsigned, so
    that no length is negative; it is harmless to allow for it.) *)
Inductive bursting (cenv : amap value) : place -> amap value -> bytes -> string -> Prop :=
| B_array : forall b f k fs c, refers camel cenv fs f k -> k < 0 \/ k * cell b > 2 ^ 48 ->
    bursting cenv (AtType (TVar b (Some (LRef f)))) fs c "makeslice: len out of range"
| B_union : forall u tag f cs k fs c, refers camel cenv fs f k -> k < 0 \/ k >= 2 ^ 63 ->
    bursting cenv (AtMember (MUnion u tag (Some (LRef f)) cs)) fs c "slice bounds out of range".
End Reach.
