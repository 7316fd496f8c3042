(** What running the fragment of Go of GoLang.v costs.  This file describes Go,
    not trunnel.

    One unit is charged for every statement reached, for every test of a loop,
    and for every node of an expression that is evaluated (all the nodes of an
    expression are charged, including operands that && and || skip).  On top of
    that:
    - bytes.IndexByte costs one unit per byte it looks at;
    - converting bytes to a string costs one unit per byte copied;
    - append costs one unit per element that it moves, which it does when the
      capacity of the slice is used up;
    - if memory is counted, it costs one unit per cell allocated, where a cell
      holds an integer, a character, a pointer or the header of a string or a
      slice: make costs as many cells as it makes elements, new the cells of
      the struct, a string one cell per byte, append the new capacity if it
      moves the elements.

    Without memory this is the number of steps; with it, the number of steps
    plus the number of cells allocated.

    How append chooses new capacities differs between versions of Go and is a
    parameter, [growth].  The capacity of a slice is computed from its length, as
    if it had been made by [make([]T, 0)] and appending one element at a time;
    in generated code that is how all slices that are appended to are made.

    Simplification: copying and slicing cost nothing beyond the nodes of the
    expression. *)
From Coq Require Import ZArith String List Bool.
From Verif Require Import Base GoLang.
Import ListNotations.
Open Scope string_scope.
Open Scope list_scope.
Open Scope Z_scope.

(** Cells of a value. *)
Fixpoint cells (t : gtype) : Z :=
  match t with GArray n t' => n * cells t' | _ => 1 end.
Definition cellsOf (fs : list (string * gtype)) : Z :=
  fold_right (fun f a => cells (snd f) + a) 0 fs.

(** Nodes of an expression. *)
Fixpoint esize (x : expr) : Z :=
  match x with
  | EInt _ | EVar _ | EEmptyBytes | ENew _ | ENil | EError _ | EBlank => 1
  | ESel a _ | ELen a | EToInt a | ENot a | EParen a | ENotNil a
  | EBigEndian _ a | EIndexByte a _ | EStringOf a | EMake _ a => 1 + esize a
  | EIdx a b | EBin _ a b | EFrom a b | ETo a b | EAppend a b => 1 + esize a + esize b
  end.

(** Bytes that bytes.IndexByte looks at. *)
Definition scanned (b : bytes) (z : Z) : Z :=
  let i := indexByte b z 0 in if i <? 0 then blen b else i + 1.

(** The capacity that append chooses when [c] elements are there and there is room
    for no more.  Go doubles it, and for long slices adds at least a quarter, and
    rounds up to what the allocator has (runtime/slice.go, growslice). *)
Record growth : Type := mkGrowth {
  next : Z -> Z;
  next_more : forall c, 0 <= c -> c < next c /\ 6 * c <= 5 * next c;
  next_room : forall c, 0 <= c -> next c <= 3 * c + 16
}.
(** What is charged for. *)
Record account : Type := mkAccount {
  withMemory : bool;   (* memory as well *)
  grows : growth
}.
(** The capacity after appending [k] elements one by one to an empty slice. *)
Fixpoint capacity (g : growth) (k : nat) : Z :=
  match k with
  | O => 0
  | S k' => let c := capacity g k' in if c =? Z.of_nat k' then next g c else c
  end.

Section Cost.
Variable mem : account.
Variable types : amap (list (string * gtype)).

Definition alloc (k : Z) : Z := if withMemory mem then k else 0.
(** Appending to a slice with [k] elements. *)
Definition moving (k : Z) : Z :=
  if capacity (grows mem) (Z.to_nat k) =? k then k + alloc (next (grows mem) k) else 0.

(** What an expression costs beyond its nodes. *)
Fixpoint extra (e : env) (x : expr) : Z :=
  match x with
  | EInt _ | EVar _ | EEmptyBytes | ENil | EError _ | EBlank => 0
  | ESel a _ | ELen a | EToInt a | ENot a | EParen a | ENotNil a | EBigEndian _ a => extra e a
  | EIdx a b | EBin _ a b | EFrom a b | ETo a b => extra e a + extra e b
  | EIndexByte a z =>
      extra e a + match eval types e a with Ok (VBytes b) => scanned b z | _ => 0 end
  | EStringOf a =>
      extra e a + match eval types e a with Ok (VBytes b) => blen b + alloc (blen b) | _ => 0 end
  | EMake t a =>
      extra e a + match eval types e x with Ok (VList l) => alloc (blen l * cells t) | _ => 0 end
  | ENew n => match alookup n types with Some fs => alloc (cellsOf fs) | None => 0 end
  | EAppend a b =>
      extra e a + extra e b + match eval types e a with Ok (VList l) => moving (blen l) | _ => 0 end
  end.
Definition work (e : env) (x : expr) : Z := esize x + extra e x.

Section Stmt.
Variable call : callfun.
Variable ccost : value -> value -> list value -> Z.   (* what a call of Parse costs *)
Variable n : nat.

Fixpoint cost (s : stmt) (e : env) {struct s} : Z :=
  let costs := fix costs (ss : list stmt) (e : env) {struct ss} : Z :=
    match ss with
    | [] => 0
    | s1 :: ss' =>
        cost s1 e +
        match exec types call n s1 e with (e1, SNext) => costs ss' e1 | _ => 0 end
    end in
  1 +
  match s with
  | SDecl _ a => work e a
  | SVar _ _ => 0
  | SAssign l a => esize (lexpr l) + work e a
  | SAssign2 l1 l2 a b => esize (lexpr l1) + esize (lexpr l2) + work e a + work e b
  | SIf c b => work e c + match eval types e c with Ok (VBool true) => costs b e | _ => 0 end
  | SBlock b => costs b e
  | SForLt x bound b =>
      let loop := fix loop (m : nat) (e : env) {struct m} : Z :=
        1 + work e (EBin BLt (EVar x) bound) +
        match eval types e (EBin BLt (EVar x) bound) with
        | Ok (VBool true) =>
            match m with
            | O => 0
            | S m' =>
                costs b e +
                match exec types call n (SBlock b) e with
                | (e1, SNext) =>
                    work e1 (EBin BAdd (EVar x) (EInt 1)) +
                    match eval types e1 (EBin BAdd (EVar x) (EInt 1)) with
                    | Ok w => loop m' (assign x w e1)
                    | _ => 0
                    end
                | _ => 0
                end
            end
        | _ => 0
        end in
      loop n ((x, VInt 0) :: e)
  | SWhile c b =>
      let loop := fix loop (m : nat) (e : env) {struct m} : Z :=
        1 + work e c +
        match eval types e c with
        | Ok (VBool true) =>
            match m with
            | O => 0
            | S m' =>
                costs b e +
                match exec types call n (SBlock b) e with (e1, SNext) => loop m' e1 | _ => 0 end
            end
        | _ => 0
        end in
      loop n e
  | SSwitch cs =>
      let default := fix default (cs : list (option expr * list stmt)) : Z :=
        match cs with
        | [] => 0
        | (None, b) :: _ => costs b e
        | (Some _, _) :: cs' => default cs'
        end in
      let pick := fix pick (cs0 : list (option expr * list stmt)) : Z :=
        match cs0 with
        | [] => default cs
        | (None, _) :: cs' => pick cs'
        | (Some c, b) :: cs' =>
            work e c +
            match eval types e c with
            | Ok (VBool true) => costs b e
            | Ok (VBool false) => pick cs'
            | _ => 0
            end
        end in
      pick cs
  | SReturn a b => work e a + work e b
  | SParse _ _ o a args | SParseDecl _ o a args =>
      work e (lexpr o) + work e a + fold_right (fun x t => work e x + t) 0 args +
      match eval types e (lexpr o), eval types e a, mapM (eval types e) args with
      | Ok recv, Ok d, Ok vs => ccost recv d vs
      | _, _, _ => 0
      end
  end.

Fixpoint costs (ss : list stmt) (e : env) {struct ss} : Z :=
  match ss with
  | [] => 0
  | s1 :: ss' =>
      cost s1 e + match exec types call n s1 e with (e1, SNext) => costs ss' e1 | _ => 0 end
  end.
End Stmt.
End Cost.

(** What [callMethod] costs. *)
Fixpoint costMethod (mem : account) (p : program) (n : nat) (recv data : value) (args : list value) {struct n} : Z :=
  match recv with
  | VStruct ty _ =>
      match alookup ty (pmethods p) with
      | None => 0
      | Some f =>
          match n with
          | O => 0
          | S m =>
              costs mem (ptypes p) (callMethod p m) (costMethod mem p m) m (fbody f)
                ((frecv f, recv) :: ("data", data) :: combine (fparams f) args)
          end
      end
  | _ => 0
  end.

(** What [callCtor] costs. *)
Definition costCtor (mem : account) (p : program) (n : nat) (ty : string) (data : value) (args : list value) : Z :=
  match alookup ty (pctors p) with
  | None => 0
  | Some f =>
      costs mem (ptypes p) (callMethod p n) (costMethod mem p n) n (fbody f)
        (("data", data) :: combine (fparams f) args)
  end.
