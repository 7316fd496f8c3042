(** Model of tv/constraints.go, tv/generator.go and tv/selector.go: the test
    vector generator.  Definitions only.

    Go maps ([Constraints]) and the arrays behind byte slices are shared between
    vectors, so both live in a heap ([maps], [bufs]) and vectors hold
    references to them. *)
From Coq Require Import ZArith String List Bool.
From Verif Require Import Base Ast IntervalsModel InspectModel.
Import ListNotations.
Open Scope string_scope.
Open Scope list_scope.
Open Scope Z_scope.

(** * tv/constraints.go *)

(** constraints.go:9-10 [Constraints]: scope to field to value. *)
Definition cons := amap (amap Z).

(** constraints.go:12-15. *)
Definition NewConstraints : cons := [].

(** constraints.go:17-25 [Lookup]. *)
Definition cLookup (c : cons) (s k : string) : option Z :=
  match alookup s c with None => None | Some vs => alookup k vs end.

(** constraints.go:32-35 [LookupRef]; line 28 [LookupLocal] is scope [""]. *)
Definition cLookupRef (c : cons) (f : idref) : option Z := cLookup c (rscope f) (rname f).

(** constraints.go:37-47 [Set]; the map is changed in place, the model returns
    the new map. *)
Definition cSet (c : cons) (s k : string) (v : Z) : outcome cons :=
  let vs := match alookup s c with None => [] | Some vs => vs end in
  match alookup k vs with
  | Some u => if u =? v then Ok (ainsert s (ainsert k v vs) c) else Err "conflicting constraint"
  | None => Ok (ainsert s (ainsert k v vs) c)
  end.

(** constraints.go:54-64 [LookupOrCreate]: the value and the new map. *)
Definition cLookupOrCreate (c : cons) (s k : string) (v : Z) : outcome (Z * cons) :=
  match cLookup c s k with
  | Some u => Ok (u, c)
  | None =>
      match cSet c s k v with
      | Ok c' => Ok (v, c')
      | Err e => Panic e
      | Panic m => Panic m
      | OutOfFuel => OutOfFuel
      end
  end.

(** constraints.go:71-79 [ClearScope], [ClearLocal]. *)
Definition cClearLocal (c : cons) : cons := adelete "" c.

(** The iteration orders of the two [range] loops of one call of [Update]. *)
Record uorders : Type := mkUO {
  uo_scopes : cons -> cons;
  uo_values : string -> amap Z -> amap Z }.

(** constraints.go:81-91 [Update]: the bindings in the order visited. *)
Definition cBindings (o : uorders) (d : cons) : list (string * string * Z) :=
  flat_map (fun sv => map (fun kv => (fst sv, fst kv, snd kv)) (uo_values o (fst sv) (snd sv))) (uo_scopes o d).
Fixpoint cSetAll (c : cons) (l : list (string * string * Z)) : outcome cons :=
  match l with
  | [] => Ok c
  | (s, k, v) :: l' => c' <- cSet c s k v ;; cSetAll c' l'
  end.
Definition cUpdate (o : uorders) (c d : cons) : outcome cons := cSetAll c (cBindings o d).

(** constraints.go:93-100 [Clone]. *)
Definition cClone (o : uorders) (c : cons) : outcome cons :=
  match cUpdate o NewConstraints c with
  | Ok m => Ok m
  | Err e => Panic e
  | Panic m => Panic m
  | OutOfFuel => OutOfFuel
  end.

(** constraints.go:102-108 [CloneGlobal]. *)
Definition cCloneGlobal (o : uorders) (c : cons) : outcome cons := g <- cClone o c ;; Ok (cClearLocal g).

(** constraints.go:110-117 [Merge]. *)
Definition cMerge (o1 o2 : uorders) (c other : cons) : outcome cons := m <- cClone o1 c ;; cUpdate o2 m other.

(** * tv/generator.go *)

(** A byte slice: the array behind it and its length.  All slices of the
    generator start at the beginning of their array. *)
Record slice : Type := mkSlice { sbuf : nat; slen : nat }.

(** generator.go:11-15 [Vector]. *)
Record vec : Type := mkVec { vdata : slice; vcons : nat }.

(** The state: heap of constraint maps, [g.constraints], heap of arrays, random
    source, and a counter of the calls whose iteration order or selection Go
    leaves open. *)
Record gst : Type := mkG {
  maps : list cons;
  cur : nat;
  bufs : list bytes;
  rnd : rng;
  calls : nat }.

Definition setNth {A} (n : nat) (x : A) (l : list A) : list A :=
  firstn n l ++ match skipn n l with [] => [] | _ :: t => x :: t end.

Definition mapOf (g : gst) (i : nat) : cons := nth i (maps g) [].
Definition putMap (i : nat) (c : cons) (g : gst) : gst := mkG (setNth i c (maps g)) (cur g) (bufs g) (rnd g) (calls g).
Definition newMap (c : cons) (g : gst) : nat * gst :=
  (List.length (maps g), mkG (maps g ++ [c]) (cur g) (bufs g) (rnd g) (calls g)).
Definition setCur (i : nat) (g : gst) : gst := mkG (maps g) i (bufs g) (rnd g) (calls g).
Definition tick (g : gst) : gst := mkG (maps g) (cur g) (bufs g) (rnd g) (S (calls g)).
Definition setRnd (r : rng) (g : gst) : gst := mkG (maps g) (cur g) (bufs g) r (calls g).

(** Contents of a slice. *)
Definition readS (g : gst) (s : slice) : bytes := firstn (slen s) (nth (sbuf s) (bufs g) []).

(** [make([]byte, n)] filled with [b], or [[]byte{}]: the array has no room to
    spare. *)
Definition newSlice (b : bytes) (g : gst) : slice * gst :=
  (mkSlice (List.length (bufs g)) (List.length b), mkG (maps g) (cur g) (bufs g ++ [b]) (rnd g) (calls g)).

(** [random.Interface] (see IntervalsModel.v): [Intn(n)]; [Read] of n bytes. *)
Definition draw (g : gst) : Z * gst :=
  (draws (rnd g) (rpos (rnd g)), setRnd (mkRng (draws (rnd g)) (S (rpos (rnd g)))) g).
Definition Intn (n : Z) (g : gst) : Z * gst := let '(d, g1) := draw g in (d mod n, g1).
Fixpoint randRead (n : nat) (g : gst) : bytes * gst :=
  match n with
  | O => ([], g)
  | S n' => let '(b, g1) := Intn 256 g in let '(bs, g2) := randRead n' g1 in (b :: bs, g2)
  end.

(** generator.go:354-357 [randbtw]. *)
Definition randbtw (a b : Z) (g : gst) : Z * gst := let '(d, g1) := Intn (b - a + 1) g in (a + d, g1).

(** generator.go:348-352 [randint]. *)
Definition randint (bits : Z) (g : gst) : bytes * gst := randRead (Z.to_nat (bits / 8)) g.

(** generator.go:359-364 [randbytes]. *)
Definition randbytes (a b : Z) (g : gst) : bytes * gst :=
  let '(n, g1) := randbtw a b g in randRead (Z.to_nat n) g1.

(** generator.go:373-383 [randnulterm]. *)
Fixpoint randLetters (n : nat) (g : gst) : bytes * gst :=
  match n with
  | O => ([], g)
  | S n' => let '(d, g1) := Intn 26 g in let '(bs, g2) := randLetters n' g1 in (97 + d :: bs, g2)
  end.
Definition randnulterm (a b : Z) (g : gst) : bytes * gst :=
  let '(n, g1) := randbtw a b g in
  let '(s, g2) := randLetters (Z.to_nat n) g1 in (s ++ [0], g2).

(** generator.go:385-393 [intbytes]: the low bytes of [x], most significant
    first. *)
Fixpoint lowBytes (n : nat) (x : Z) : bytes :=
  match n with
  | O => []
  | S n' => lowBytes n' (Z.shiftr x 8) ++ [x mod 256]
  end.
Definition intbytes (x bits : Z) : bytes := lowBytes (Z.to_nat (bits / 8)) x.

(** generator.go:340-346 [vector] and 335-338 [empty]: with the current
    constraints, not a copy. *)
Definition vectorOf (b : bytes) (g : gst) : vec * gst :=
  let '(s, g1) := newSlice b g in (mkVec s (cur g1), g1).
Definition emptyVec (g : gst) : vec * gst := vectorOf [] g.

Section Tv.
(** The capacity [append] gives to a new array, from the old capacity and the
    length needed (at least the latter is always given). *)
Variable grow : nat -> nat -> nat.
(** Iteration orders of the maps in the n-th copy or merge. *)
Variable ords : nat -> uorders.
(** selector.go:5-8 [Selector]: what the n-th call selects. *)
Variable sel : nat -> list vec -> list vec.
Variable r : resolver.

(** Go's built-in [append(a, b...)]: in place if the array has room. *)
Definition appendS (a : slice) (b : bytes) (g : gst) : slice * gst :=
  let old := nth (sbuf a) (bufs g) [] in
  let need := (slen a + List.length b)%nat in
  if (need <=? List.length old)%nat then
    (mkSlice (sbuf a) need,
     mkG (maps g) (cur g) (setNth (sbuf a) (firstn (slen a) old ++ b ++ skipn need old) (bufs g)) (rnd g) (calls g))
  else
    (mkSlice (List.length (bufs g)) need,
     mkG (maps g) (cur g)
         (bufs g ++ [firstn (slen a) old ++ b ++ repeat 0 (grow (List.length old) need - need)]) (rnd g) (calls g)).

Definition select (vs : list vec) (g : gst) : list vec * gst := (sel (calls g) vs, tick g).

(** constraints.go [Clone], [CloneGlobal], [Merge] on the heap. *)
Definition cloneMap (i : nat) (g : gst) : outcome (nat * gst) :=
  c <- cClone (ords (calls g)) (mapOf g i) ;; Ok (newMap c (tick g)).
Definition cloneGlobalMap (i : nat) (g : gst) : outcome (nat * gst) :=
  c <- cCloneGlobal (ords (calls g)) (mapOf g i) ;; Ok (newMap c (tick g)).
Definition mergeMaps (i j : nat) (g : gst) : outcome (nat * gst) :=
  c <- cMerge (ords (calls g)) (ords (S (calls g))) (mapOf g i) (mapOf g j) ;; Ok (newMap c (tick (tick g))).
Definition lookupOrCreate (i : nat) (f : idref) (v : Z) (g : gst) : outcome (Z * gst) :=
  '(u, c) <- cLookupOrCreate (mapOf g i) (rscope f) (rname f) v ;; Ok (u, putMap i c g).

(** [b.Set.RandomWithGenerator(g.rnd)]. *)
Definition randomIn (fuel : nat) (s : iset) (g : gst) : outcome (Z * gst) :=
  '(x, rn) <- RandomWithGenerator fuel s (rnd g) ;; Ok (x, setRnd rn g).

(** generator.go:25-41 [cross]. *)
Fixpoint crossOne (u : vec) (b : list vec) (g : gst) : outcome (list vec * gst) :=
  match b with
  | [] => Ok ([], g)
  | w :: b' =>
      '(m, g1) <- mergeMaps (vcons u) (vcons w) g ;;
      let '(d, g2) := appendS (vdata u) (readS g1 (vdata w)) g1 in
      '(rest, g3) <- crossOne u b' g2 ;;
      Ok (mkVec d m :: rest, g3)
  end.
Fixpoint cross (a b : list vec) (g : gst) : outcome (list vec * gst) :=
  match a with
  | [] => Ok ([], g)
  | u :: a' =>
      '(p, g1) <- crossOne u b g ;;
      '(q, g2) <- cross a' b g1 ;;
      Ok (p ++ q, g2)
  end.

(** generator.go:212-232 [intType]. *)
Definition intType (fuel : nat) (nm : string) (sz : Z) (cst : option intlist) (g : gst) : outcome (list vec * gst) :=
  '(b, g1) <- match cLookup (mapOf g (cur g)) "" nm with
    | Some x => Ok (intbytes x sz, g)
    | None =>
        match cst with
        | Some l =>
            s <- Intervals r l ;;
            '(x, g1) <- randomIn fuel s g ;;
            Ok (intbytes (s64 x) sz, g1)
        | None => Ok (randint sz g)
        end
    end ;;
  let '(v, g2) := vectorOf b g1 in Ok ([v], g2).

(** generator.go:260-270: the loop of [array]; [elem] generates one element. *)
Fixpoint arrayLoop (elem : gst -> outcome (list vec * gst)) (n : nat) (v : list vec) (g : gst) : outcome (list vec * gst) :=
  match n with
  | O => Ok (v, g)
  | S n' =>
      '(w, g1) <- elem g ;;
      '(v1, g2) <- cross w v g1 ;;
      let '(v2, g3) := select v1 g2 in
      arrayLoop elem n' v2 g3
  end.

(** Generation inside one struct; [strct] is [g.strct], [callS] generates a
    nested struct. *)
Section Body.
Variable fuel : nat.
Variable callS : struct -> gst -> outcome (list vec * gst).
Variable strct : struct.

(** generator.go:180-210 [field] and 234-272 [array]. *)
Fixpoint field (nm : string) (t : type) (g : gst) : outcome (list vec * gst) :=
  match t with
  | TInt sz cst => intType fuel nm sz cst g
  | TChar => intType fuel nm 8 None g
  | TPtr => let '(v, g1) := emptyVec g in Ok ([v], g1)
  | TNul =>
      let '(b, g1) := randnulterm 2 20 g in
      let '(v, g2) := vectorOf b g1 in Ok ([v], g2)
  | TStruct n => s <- StructNonExtern r n ;; callS s g
  | TFixed b i =>
      let '(iv, g1) := emptyVec g in
      n <- Integer r i ;;
      arrayLoop (field "" b) (Z.to_nat n) [iv] g1
  | TVar b None =>
      let '(iv, g1) := emptyVec g in
      let '(n, g2) := randbtw 1 20 g1 in
      arrayLoop (field "" b) (Z.to_nat n) [iv] g2
  | TVar b (Some (LRef f)) =>
      let '(iv, g1) := emptyVec g in
      let '(d, g2) := randbtw 1 20 g1 in
      '(n, g3) <- lookupOrCreate (vcons iv) f d g2 ;;
      arrayLoop (field "" b) (Z.to_nat n) [iv] g3
  | TVar _ (Some (LLeftover _)) => Err "not implemented"
  end.

(** generator.go:143-154: what [members] does for one member; [mem] generates
    it. *)
Fixpoint prepend (v : vec) (mvs : list vec) (g : gst) : list vec * gst :=
  match mvs with
  | [] => ([], g)
  | mv :: mvs' =>
      let '(d, g1) := appendS (vdata mv) (readS g (vdata v)) g in
      let '(rest, g2) := prepend v mvs' g1 in
      (mkVec d (vcons mv) :: rest, g2)
  end.
Fixpoint extend (mem : gst -> outcome (list vec * gst)) (vs : list vec) (g : gst) : outcome (list vec * gst) :=
  match vs with
  | [] => Ok ([], g)
  | v :: vs' =>
      '(mvs, g1) <- mem (setCur (vcons v) g) ;;
      let '(e, g2) := prepend v mvs g1 in
      '(rest, g3) <- extend mem vs' g2 ;;
      Ok (e ++ rest, g3)
  end.

(** generator.go:318-330: the loop of [lenconstrain]. *)
Fixpoint lenconstrain (f : idref) (vs : list vec) (g : gst) : outcome (list vec * gst) :=
  match vs with
  | [] => Ok ([], g)
  | v :: vs' =>
      let n := Z.of_nat (slen (vdata v)) in
      '(c, g1) <- cloneMap (vcons v) g ;;
      '(m, g2) <- lookupOrCreate c f n g1 ;;
      '(rest, g3) <- lenconstrain f vs' g2 ;;
      Ok ((if m =? n then [mkVec (vdata v) c] else []) ++ rest, g3)
  end.

(** generator.go:280-289: the branches [union] goes through. *)
Definition unionOptions (bs : list branch) (t : option Z) : option (list branch) :=
  match t with
  | None => Some bs
  | Some x => match Lookup bs x with None => None | Some b => Some [b] end
  end.

(** generator.go:294-302: the loop of [union]; [gen] generates the members of a
    case. *)
Fixpoint unionLoop (gen : ucase -> list vec -> gst -> outcome (list vec * gst)) (tag : idref) (base : nat)
    (bs : list branch) (g : gst) : outcome (list vec * gst) :=
  match bs with
  | [] => Ok ([], g)
  | b :: bs' =>
      '(c, g1) <- cloneMap base g ;;
      let g2 := setCur c g1 in
      '(x, g3) <- randomIn fuel (bset b) g2 ;;
      '(_, g4) <- lookupOrCreate (cur g3) tag (s64 x) g3 ;;
      let '(ev, g5) := emptyVec g4 in
      '(vs, g6) <- gen (bcase b) [ev] g5 ;;
      '(rest, g7) <- unionLoop gen tag base bs' g6 ;;
      Ok (vs ++ rest, g7)
  end.

(** generator.go:160-178 [member] and 274-310 [union]; [gen] generates the
    members of a case. *)
Definition gmember (gen : ucase -> list vec -> gst -> outcome (list vec * gst)) (m : member) (g : gst) : outcome (list vec * gst) :=
  match m with
  | MField nm t => field nm t g
  | MUnion _ tag len cs =>
      bs <- NewBranches r strct tag cs ;;
      match unionOptions bs (cLookupRef (mapOf g (cur g)) tag) with
      | None => Ok ([], g)
      | Some opts =>
          '(base, g1) <- cloneMap (cur g) g ;;
          '(results, g2) <- unionLoop gen tag base opts g1 ;;
          match len with
          | None => Ok (results, g2)
          | Some (LRef f) => lenconstrain f results g2
          | Some (LLeftover _) => Err "not implemented"
          end
      end
  | MIgnore =>
      let '(a, g1) := emptyVec g in
      let '(b, g2) := randbytes 1 7 g1 in
      let '(v, g3) := vectorOf b g2 in Ok ([a; v], g3)
  | MFail => Ok ([], g)
  | MEOS => let '(v, g1) := emptyVec g in Ok ([v], g1)
  end.

(** generator.go:139-158 [members]: from the last member to the first. *)
Fixpoint membersLoop (mem : member -> gst -> outcome (list vec * gst)) (ms : list member) (vs : list vec) (g : gst)
  : outcome (list vec * gst) :=
  match ms with
  | [] => Ok (vs, g)
  | m :: ms' =>
      '(vs1, g1) <- membersLoop mem ms' vs g ;;
      '(ext, g2) <- extend (mem m) vs1 g1 ;;
      Ok (select ext g2)
  end.
End Body.

(** generator.go:118-137 [structure]; [gen] generates the members.  ([g.strct]
    is a parameter of [gen] and needs no restoring.) *)
Definition clearMap (i : nat) (g : gst) : gst := putMap i (cClearLocal (mapOf g i)) g.
Definition structureWith (gen : struct -> list member -> list vec -> gst -> outcome (list vec * gst)) (s : struct) (g : gst)
  : outcome (list vec * gst) :=
  '(c, g1) <- cloneGlobalMap (cur g) g ;;
  let '(d, g2) := newSlice [] g1 in
  '(vs, g3) <- gen s (members_of s) [mkVec d c] g2 ;;
  let g4 := clearMap (cur g3) g3 in
  Ok (vs, fold_left (fun g v => clearMap (vcons v) g) vs g4).

(** [members] with the recursion tied: [n] bounds the nesting of structs and
    unions, and the rejection loop of [RandomWithGenerator]. *)
Fixpoint gmembers (n : nat) (strct : struct) (ms : list member) (vs : list vec) (g : gst) {struct n}
  : outcome (list vec * gst) :=
  match n with
  | O => OutOfFuel
  | S n' =>
      membersLoop (gmember n' (structureWith (gmembers n')) strct (fun c => gmembers n' strct (ucase_members c))) ms vs g
  end.
Definition structure (n : nat) (s : struct) (g : gst) : outcome (list vec * gst) := structureWith (gmembers n) s g.

(** generator.go:97-113: one suite per struct ([Suite], tv/corpus.go:17-21), with
    the vectors still in the heap. *)
Fixpoint suites (n : nat) (ss : list struct) (g : gst) : outcome (list (string * list vec) * gst) :=
  match ss with
  | [] => Ok ([], g)
  | s :: ss' =>
      if Extern s then suites n ss' g
      else
        let '(c, g1) := newMap NewConstraints g in
        '(vs, g2) <- structure n s (setCur c g1) ;;
        '(rest, g3) <- suites n ss' g2 ;;
        Ok ((sname s, vs) :: rest, g3)
  end.
End Tv.

(** A vector as the caller sees it at the end: its bytes and its constraints. *)
Definition vector := (bytes * cons)%type.
Record suite : Type := mkSuite { stype : string; svectors : list vector }.
Definition corpus := list suite.
Definition seen (g : gst) (v : vec) : vector := (readS g (vdata v), mapOf g (vcons v)).

(** generator.go:52-67 [Generate], [GenerateFiles] and 91-116 [files]. *)
Definition GenerateFiles (grow : nat -> nat -> nat) (ords : nat -> uorders) (sel : nat -> list vec -> list vec)
    (os : nat -> orders) (n : nat) (fs : list file) (rn : rng) : outcome corpus :=
  r <- NewResolverFiles os fs ;;
  '(ss, g) <- suites grow ords sel r n (flat_map fstructs fs) (mkG [] O [] rn O) ;;
  Ok (map (fun x => mkSuite (fst x) (map (seen g) (snd x))) ss).

(** * tv/selector.go *)

(** selector.go:18-19 [Exhaustive]. *)
Definition Exhaustive {A} (vs : list A) : list A := vs.

(** selector.go:21-35 [RandomSampleSelector]; [pi] is what [rand.Perm(m)]
    returns.  [make] panics for a negative [n]. *)
Definition RandomSample {A} (n : Z) (pi : list nat) (d : A) (vs : list A) : outcome (list A) :=
  let m := Z.of_nat (List.length vs) in
  if m <=? n then Ok vs
  else if n <? 0 then Panic "makeslice: len out of range"
  else Ok (map (fun i => nth i vs d) (firstn (Z.to_nat n) pi)).
