(** Writing values.

    trunnel generates parsers only.  This file says what the matching writer would
    do: it computes the bytes of a value from the value alone, and says which values
    have bytes at all.  Nothing here refers to the generated code. *)
From Coq Require Import ZArith String List Bool.
From Verif Require Import Base Ast InspectModel InspectSpec GoLang WireSpec WireFacts.
Import ListNotations.
Open Scope string_scope.
Open Scope list_scope.
Open Scope Z_scope.

(** How deep structs are nested in a value. *)
Fixpoint vdepth (v : value) : nat :=
  match v with
  | VList l => fold_right (fun x d => Nat.max (vdepth x) d) O l
  | VStruct _ fs => S (fold_right (fun x d => Nat.max (vdepth (snd x)) d) O fs)
  | _ => O
  end.
Definition fdepth (fs : amap value) : nat := fold_right (fun x d => Nat.max (vdepth (snd x)) d) O fs.

(** The last [k] base-256 digits of [x]. *)
Fixpoint digits (k : nat) (x : Z) : bytes :=
  match k with O => [] | S k' => digits k' (x / 256) ++ [x mod 256] end.

(** One after the other. *)
Definition both (a b : option bytes) : option bytes :=
  match a, b with Some u, Some v => Some (u ++ v) | _, _ => None end.
Definition all {A} (f : A -> option bytes) (l : list A) : option bytes := fold_right (fun x w => both (f x) w) (Some []) l.
(** The bytes, if there are any. *)
Definition some (w : option bytes) : bytes := match w with Some u => u | None => [] end.

Section Round.
Variable camel : string -> string.
Variable r : resolver.
Notation cv := (Constant r).
Notation sv := (Struct r).

Definition lookupRef (cenv fin : amap value) (f : idref) : option Z :=
  if String.eqb (rscope f) "" then
    match alookup (camel (rname f)) fin with Some (VInt x) => Some x | _ => None end
  else
    match alookup (rscope f) cenv with
    | Some (VStruct _ cf) => match alookup (camel (rname f)) cf with Some (VInt x) => Some x | _ => None end
    | _ => None
    end.
Definition listed (x : Z) (l : intlist) : bool :=
  existsb (fun g => match range_bounds cv g with Some (a, b) => (a <=? x) && (x <=? b) | None => false end) l.

(** The contexts of a nested struct. *)
Fixpoint handed (cenv : amap value) (ns : list string) : option (amap value) :=
  match ns with
  | [] => Some []
  | x :: ns' =>
      match alookup x cenv, handed cenv ns' with Some v, Some l => Some ((x, v) :: l) | _, _ => None end
  end.

Section Level.
(** The bytes of a nested struct, and whether it fits. *)
Variable call : amap value -> string -> amap value -> option bytes.
Variable fine : amap value -> string -> amap value -> bytes -> Prop.
Variable cenv : amap value.
(** The fields of the struct. *)
Variable fin : amap value.

Fixpoint writeT (t : type) (v : value) {struct t} : option bytes :=
  match t, v with
  | TInt sz _, VInt x => Some (digits (Z.to_nat (sz / 8)) x)
  | TChar, VInt x => Some (digits 1 x)
  | TNul, VStr s => Some (s ++ [0])
  | TPtr, VInt _ => Some []
  | TStruct nm, VStruct _ f => call cenv nm f
  | TFixed b _, VList vs => all (writeT b) vs
  | TVar b _, VList vs => all (writeT b) vs
  | _, _ => None
  end.

(** A union has the bytes of its case: the first one that lists the tag, or the
    default, or nothing. *)
Fixpoint writeM (m : member) : option bytes :=
  match m with
  | MField nm t => match alookup (camel nm) fin with Some v => writeT t v | None => None end
  | MUnion _ tag _ cs =>
      match lookupRef cenv fin tag with
      | Some x =>
          (fix go (cs : list ucase) (dflt : option bytes) : option bytes :=
             match cs with
             | [] => dflt
             | UCase (Some l) ms :: cs' => if listed x l then all writeM ms else go cs' dflt
             | UCase None ms :: cs' => go cs' (all writeM ms)
             end) cs (Some [])
      | None => None
      end
  | MEOS | MIgnore => Some []
  | MFail => None
  end.

(** Elements [vs] of type [b] at [pos], before [tail]. *)
Definition fitsN (fitsE : Z -> value -> bytes -> Prop) (b : type) := fix fitsN (pos : Z) (vs : list value) (tail : bytes) : Prop :=
  match vs with
  | [] => True
  | v :: vs' => fitsE pos v (some (all (writeT b) vs') ++ tail) /\ fitsN (pos + blen (some (writeT b v))) vs' tail
  end.
(** The same up to the end of the extent: the parser looks whether it is there. *)
Definition fitsAll (fitsE : Z -> value -> bytes -> Prop) (b : type) := fix fitsAll (pos : Z) (vs : list value) : Prop :=
  match vs with
  | [] => True
  | v :: vs' => some (all (writeT b) (v :: vs')) <> [] /\ fitsE pos v (some (all (writeT b) vs')) /\
                fitsAll (pos + blen (some (writeT b v))) vs'
  end.

(** [v] can be a value of type [t] that starts [pos] bytes into the struct and is
    followed by [tail]. *)
Fixpoint fitsT (t : type) (pos : Z) (v : value) (tail : bytes) {struct t} : Prop :=
  match t, v with
  | TInt sz cst, VInt x => 0 <= x < 256 ^ (sz / 8) /\ (forall l, cst = Some l -> in_list cv l x)
  | TChar, VInt x => 0 <= x < 256
  | TNul, VStr s => ~ In 0 s
  | TPtr, VInt x => x = pos
  | TStruct nm, VStruct ty f => ty = camel nm /\ fine cenv nm f tail
  | TFixed b i, VList vs => int_value cv i = Some (blen vs) /\ fitsN (fitsT b) b pos vs tail
  | TVar b (Some (LRef f)), VList vs => refers camel cenv fin f (blen vs) /\ fitsN (fitsT b) b pos vs tail
  | TVar b None, VList vs => tail = [] /\ fitsAll (fitsT b) b pos vs
  | TVar b (Some (LLeftover i)), VList vs => int_value cv i = Some (blen tail) /\ fitsAll (fitsT b) b pos vs
  | _, _ => False
  end.

Definition fitsMs (fitsM : member -> Z -> bytes -> Prop) := fix fitsMs (ms : list member) (pos : Z) (tail : bytes) : Prop :=
  match ms with
  | [] => True
  | m :: ms' => fitsM m pos (some (all writeM ms') ++ tail) /\ fitsMs ms' (pos + blen (some (writeM m))) tail
  end.

(** The fields of the member fit.  Lengths of unions are those of their bytes. *)
Fixpoint fitsM (m : member) (pos : Z) (tail : bytes) {struct m} : Prop :=
  match m with
  | MField nm t => exists v, alookup (camel nm) fin = Some v /\ fitsT t pos v tail
  | MUnion _ tag len cs => exists x, refers camel cenv fin tag x /\
      match len with
      | None => True
      | Some (LRef f) => refers camel cenv fin f (blen (some (writeM m)))
      | Some (LLeftover i) => int_value cv i = Some (blen tail)
      end /\
      (fix go (cs' : list ucase) : Prop :=
         match cs' with
         | [] => True
         | UCase l ms :: cs'' =>
             (takes cv cs x (UCase l ms) -> fitsMs fitsM ms pos (match len with None => tail | Some _ => [] end)) /\ go cs''
         end) cs
  | MEOS | MIgnore => tail = []
  | MFail => False
  end.
End Level.

(** The bytes of the fields [fin] of a struct, nested at most [n] deep. *)
Fixpoint write (n : nat) (cenv : amap value) (s : struct) (fin : amap value) : option bytes :=
  all (writeM (fun cenv nm f =>
         match n, sv nm with
         | S n', Some s' => match handed cenv (scontexts s') with Some cenv' => write n' cenv' s' f | None => None end
         | _, _ => None
         end) cenv fin) (members_of s).

(** Fields that a value does not have, as they belong to another union case, are as
    in [fs0]. *)
Definition kept (cenv : amap value) (s : struct) (fs0 fin : amap value) : Prop :=
  map fst fin = map fst fs0 /\
  forall g, (forall nm t, camel nm = g -> ~ present camel r cenv fin (members_of s) (MField nm t)) -> alookup g fin = alookup g fs0.

Fixpoint fits (n : nat) (cenv : amap value) (s : struct) (fin : amap value) (tail : bytes) : Prop :=
  let call := fun cenv nm f =>
         match n, sv nm with
         | S n', Some s' => match handed cenv (scontexts s') with Some cenv' => write n' cenv' s' f | None => None end
         | _, _ => None
         end in
  fitsMs call cenv fin (fitsM call
    (fun cenv nm f tl => match n with
       | S n' => exists s' cenv', sv nm = Some s' /\ Extern s' = false /\ passes cenv s' cenv' /\
                   kept cenv' s' (blank camel cv s') f /\ fits n' cenv' s' f tl
       | O => False
       end) cenv fin) (members_of s) 0 tail.

(** The bytes of a value of a struct. *)
Definition bytesOf (s : struct) (cenv fin : amap value) : option bytes := write (fdepth fin) cenv s fin.
(** The value can be written, and [tail] may follow. *)
Definition writable (s : struct) (cenv fin : amap value) (tail : bytes) : Prop := fits (fdepth fin) cenv s fin tail.
End Round.
