(** The wire format of trunnel declarations, independent of the generator.

    The relations below say which bytes encode which Go value.  A value is
    encoded by [w] "before" [tail]: [tail] is what follows in the enclosing
    extent (the whole input, or the part a length constraint confines us to).
    Most rules ignore [tail]; arrays without a length, [eos], [ignore] and the
    [..-n] constraints look at it. *)
From Coq Require Import ZArith String List Bool.
From Verif Require Import Base Ast InspectModel InspectSpec GoLang.
Import ListNotations.
Open Scope string_scope.
Open Scope list_scope.
Open Scope Z_scope.

(** [w] is [x] in big-endian order. *)
Inductive bigEndian : bytes -> Z -> Prop :=
| BE_nil : bigEndian [] 0
| BE_snoc : forall w x b, bigEndian w x -> is_byte b -> bigEndian (w ++ [b]) (256 * x + b).

(** All fields of a member, those of union cases included, in order. *)
Fixpoint allFields (m : member) : list (string * type) :=
  match m with
  | MField n t => [(n, t)]
  | MUnion _ _ _ cs => flat_map (fun c => match c with UCase _ ms => flat_map allFields ms end) cs
  | MEOS | MFail | MIgnore => []
  end.

Section Wire.
Variable camel : string -> string.                (* Go name of a field or struct *)
Variable cv : string -> option Z.                 (* constants *)
Variable sv : string -> option struct.            (* structs *)
(** Whether a union may be empty when no case lists its tag and there is no
    default.  The format says no ([False]); the generated code says yes. *)
Variable lenient : Prop.

(** A fresh Go value of a type: what [var x T] holds. *)
Fixpoint blankOf (t : type) : value :=
  match t with
  | TInt _ _ | TChar | TPtr => VInt 0
  | TNul => VStr []
  | TStruct _ | TVar _ _ => VNil
  | TFixed b i => VList (repeat (blankOf b) (match int_value cv i with Some k => Z.to_nat k | None => O end))
  end.
(** [new(T)]: all fields of the struct blank. *)
Definition blank (s : struct) : amap value :=
  map (fun f => (camel (fst f), blankOf (snd f))) (flat_map allFields (members_of s)).

(** The integer a reference stands for: a field parsed earlier, or a field of a
    context. *)
Definition refers (cenv fs : amap value) (f : idref) (x : Z) : Prop :=
  if String.eqb (rscope f) "" then alookup (camel (rname f)) fs = Some (VInt x)
  else exists ty cf, alookup (rscope f) cenv = Some (VStruct ty cf) /\
                     alookup (camel (rname f)) cf = Some (VInt x).

(** The contexts handed to a nested struct are the like-named ones. *)
Definition passes (cenv : amap value) (s : struct) (cenv' : amap value) : Prop :=
  Forall2 (fun x xv => fst xv = x /\ alookup x cenv = Some (snd xv)) (scontexts s) cenv'.

(** Set a field of a struct. *)
Fixpoint setField (f : string) (v : value) (fs : amap value) : amap value :=
  match fs with
  | [] => []
  | (g, w) :: fs' => if String.eqb f g then (g, v) :: fs' else (g, w) :: setField f v fs'
  end.

(** [enc cenv pos fs t v w tail]: [w] encodes the value [v] of type [t].
    [cenv] holds the contexts, [fs] the fields of the struct so far, [pos] the
    distance from the start of the struct.
    [encN]: a given number of elements.  [encAll]: elements up to the end of the
    extent.  [encM], [encMs]: members of a struct with fields [fs] before and
    [fs'] after. *)
Inductive enc (cenv : amap value) : Z -> amap value -> type -> value -> bytes -> bytes -> Prop :=
| Enc_int : forall pos fs sz cst x w tail,
    bigEndian w x -> blen w = sz / 8 ->
    (forall l, cst = Some l -> in_list cv l x) ->
    enc cenv pos fs (TInt sz cst) (VInt x) w tail
| Enc_char : forall pos fs x w tail,
    bigEndian w x -> blen w = 1 -> enc cenv pos fs TChar (VInt x) w tail
| Enc_nul : forall pos fs s tail, ~ In 0 s -> enc cenv pos fs TNul (VStr s) (s ++ [0]) tail
| Enc_ptr : forall pos fs tail, enc cenv pos fs TPtr (VInt pos) [] tail
| Enc_struct : forall pos fs nm s cenv' fs' w tail,
    sv nm = Some s -> Extern s = false -> passes cenv s cenv' ->
    encMs cenv' 0 (members_of s) (blank s) w tail fs' ->
    enc cenv pos fs (TStruct nm) (VStruct (camel nm) fs') w tail
| Enc_fixed : forall pos fs b i k vs w tail,
    int_value cv i = Some k -> blen vs = k -> encN cenv pos fs b vs w tail ->
    enc cenv pos fs (TFixed b i) (VList vs) w tail
| Enc_counted : forall pos fs b f vs w tail,
    refers cenv fs f (blen vs) -> encN cenv pos fs b vs w tail ->
    enc cenv pos fs (TVar b (Some (LRef f))) (VList vs) w tail
| Enc_rest : forall pos fs b vs w,
    encAll cenv pos fs b vs w -> enc cenv pos fs (TVar b None) (VList vs) w []
| Enc_allbut : forall pos fs b i k vs w tail,
    int_value cv i = Some k -> blen tail = k -> encAll cenv pos fs b vs w ->
    enc cenv pos fs (TVar b (Some (LLeftover i))) (VList vs) w tail
with encN (cenv : amap value) : Z -> amap value -> type -> list value -> bytes -> bytes -> Prop :=
| EncN_nil : forall pos fs b tail, encN cenv pos fs b [] [] tail
| EncN_cons : forall pos fs b v vs w1 w2 tail,
    enc cenv pos fs b v w1 (w2 ++ tail) -> encN cenv (pos + blen w1) fs b vs w2 tail ->
    encN cenv pos fs b (v :: vs) (w1 ++ w2) tail
with encAll (cenv : amap value) : Z -> amap value -> type -> list value -> bytes -> Prop :=
| EncAll_nil : forall pos fs b, encAll cenv pos fs b [] []
| EncAll_cons : forall pos fs b v vs w1 w2,
    w1 ++ w2 <> [] ->
    enc cenv pos fs b v w1 w2 -> encAll cenv (pos + blen w1) fs b vs w2 ->
    encAll cenv pos fs b (v :: vs) (w1 ++ w2)
with encM (cenv : amap value) : Z -> member -> amap value -> bytes -> bytes -> amap value -> Prop :=
| EncM_field : forall pos nm t fs v w tail,
    enc cenv pos fs t v w tail ->
    encM cenv pos (MField nm t) fs w tail (setField (camel nm) v fs)
| EncM_union : forall pos u tag cs x fs w tail fs',
    refers cenv fs tag x -> encCase cenv pos cs x fs w tail fs' ->
    encM cenv pos (MUnion u tag None cs) fs w tail fs'
| EncM_union_len : forall pos u tag f cs x fs w tail fs',
    refers cenv fs tag x -> refers cenv fs f (blen w) -> encCase cenv pos cs x fs w [] fs' ->
    encM cenv pos (MUnion u tag (Some (LRef f)) cs) fs w tail fs'
| EncM_union_allbut : forall pos u tag i k cs x fs w tail fs',
    refers cenv fs tag x -> int_value cv i = Some k -> blen tail = k -> encCase cenv pos cs x fs w [] fs' ->
    encM cenv pos (MUnion u tag (Some (LLeftover i)) cs) fs w tail fs'
| EncM_eos : forall pos fs, encM cenv pos MEOS fs [] [] fs
| EncM_ignore : forall pos fs w, encM cenv pos MIgnore fs w [] fs
with encCase (cenv : amap value) : Z -> list ucase -> Z -> amap value -> bytes -> bytes -> amap value -> Prop :=
| EncCase_taken : forall pos cs x c fs w tail fs',
    takes cv cs x c -> encMs cenv pos (ucase_members c) fs w tail fs' ->
    encCase cenv pos cs x fs w tail fs'
| EncCase_none : forall pos cs x fs tail,
    lenient -> (forall c, ~ takes cv cs x c) -> encCase cenv pos cs x fs [] tail fs
with encMs (cenv : amap value) : Z -> list member -> amap value -> bytes -> bytes -> amap value -> Prop :=
| EncMs_nil : forall pos fs tail, encMs cenv pos [] fs [] tail fs
| EncMs_cons : forall pos m ms fs w1 w2 tail fs1 fs2,
    encM cenv pos m fs w1 (w2 ++ tail) fs1 -> encMs cenv (pos + blen w1) ms fs1 w2 tail fs2 ->
    encMs cenv pos (m :: ms) fs (w1 ++ w2) tail fs2.

(** Declarations whose encodings are never empty. *)
Inductive eats : type -> Prop :=
| Eats_int : forall sz cst, 0 < sz / 8 -> eats (TInt sz cst)
| Eats_char : eats TChar
| Eats_nul : eats TNul
| Eats_struct : forall nm s, sv nm = Some s -> eatsMs (members_of s) -> eats (TStruct nm)
| Eats_fixed : forall b i k, int_value cv i = Some k -> 0 < k -> eats b -> eats (TFixed b i)
with eatsM : member -> Prop :=
| EatsM_field : forall nm t, eats t -> eatsM (MField nm t)
| EatsM_union : forall u tag len cs,
    (exists c, In c cs /\ ucase_list c = None) ->
    (forall c, In c cs -> eatsMs (ucase_members c)) -> eatsM (MUnion u tag len cs)
| EatsM_fail : eatsM MFail
with eatsMs : list member -> Prop :=
| EatsMs_here : forall m ms, eatsM m -> eatsMs (m :: ms)
| EatsMs_later : forall m ms, eatsMs ms -> eatsMs (m :: ms).

(** The bytes [w] followed by [tail] encode a struct whose fields were [fs]
    before and are [fs'] after. *)
Definition encStruct (cenv : amap value) (s : struct) (fs : amap value) (w tail : bytes) (fs' : amap value) : Prop :=
  encMs cenv 0 (members_of s) fs w tail fs'.
End Wire.

Scheme enc_ind2 := Induction for enc Sort Prop
with encN_ind2 := Induction for encN Sort Prop
with encAll_ind2 := Induction for encAll Sort Prop
with encM_ind2 := Induction for encM Sort Prop
with encCase_ind2 := Induction for encCase Sort Prop
with encMs_ind2 := Induction for encMs Sort Prop.
Combined Scheme enc_mutind from enc_ind2, encN_ind2, encAll_ind2, encM_ind2, encCase_ind2, encMs_ind2.

Scheme eats_ind2 := Induction for eats Sort Prop
with eatsM_ind2 := Induction for eatsM Sort Prop
with eatsMs_ind2 := Induction for eatsMs Sort Prop.
Combined Scheme eats_mutind from eats_ind2, eatsM_ind2, eatsMs_ind2.
