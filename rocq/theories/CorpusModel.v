(** Model of the names of corpus files: [sha256namer] in tv/corpus.go.  Definitions only.

    [crypto/sha256] is written out after FIPS 180-4, as [Sum256] computes it: words are integers
    below 2^32. *)
From Coq Require Import ZArith String Ascii List Bool.
From Verif Require Import Base InspectModel GoLang TvModel.
Import ListNotations.
Open Scope string_scope.
Open Scope list_scope.
Open Scope Z_scope.

Definition two32 : Z := 4294967296.
Definition add32 (a b : Z) : Z := (a + b) mod two32.
Definition rotr (n x : Z) : Z := Z.lor (Z.shiftr x n) (Z.shiftl x (32 - n) mod two32).
Definition xor3 (a b c : Z) : Z := Z.lxor a (Z.lxor b c).

(** FIPS 180-4, 4.1.2. *)
Definition Ch (x y z : Z) : Z := Z.lxor (Z.land x y) (Z.land (two32 - 1 - x) z).
Definition Maj (x y z : Z) : Z := xor3 (Z.land x y) (Z.land x z) (Z.land y z).
Definition Sigma0 (x : Z) : Z := xor3 (rotr 2 x) (rotr 13 x) (rotr 22 x).
Definition Sigma1 (x : Z) : Z := xor3 (rotr 6 x) (rotr 11 x) (rotr 25 x).
Definition sigma0 (x : Z) : Z := xor3 (rotr 7 x) (rotr 18 x) (Z.shiftr x 3).
Definition sigma1 (x : Z) : Z := xor3 (rotr 17 x) (rotr 19 x) (Z.shiftr x 10).

(** 4.2.2 and 5.3.3. *)
Definition K256 : list Z := [
   1116352408; 1899447441; 3049323471; 3921009573; 961987163; 1508970993; 2453635748; 2870763221;
   3624381080; 310598401; 607225278; 1426881987; 1925078388; 2162078206; 2614888103; 3248222580;
   3835390401; 4022224774; 264347078; 604807628; 770255983; 1249150122; 1555081692; 1996064986;
   2554220882; 2821834349; 2952996808; 3210313671; 3336571891; 3584528711; 113926993; 338241895;
   666307205; 773529912; 1294757372; 1396182291; 1695183700; 1986661051; 2177026350; 2456956037;
   2730485921; 2820302411; 3259730800; 3345764771; 3516065817; 3600352804; 4094571909; 275423344;
   430227734; 506948616; 659060556; 883997877; 958139571; 1322822218; 1537002063; 1747873779;
   1955562222; 2024104815; 2227730452; 2361852424; 2428436474; 2756734187; 3204031479; 3329325298].
Definition H256 : list Z := [
   1779033703; 3144134277; 1013904242; 2773480762; 1359893119; 2600822924; 528734635; 1541459225].

(** 5.1.1: a one bit, zeros, the length in bits. *)
Definition be64 (x : Z) : bytes := map (fun k => (x / 256 ^ k) mod 256) [7; 6; 5; 4; 3; 2; 1; 0].
Definition padded (b : bytes) : bytes :=
  b ++ 128 :: repeat 0 (Z.to_nat ((55 - blen b) mod 64)) ++ be64 (8 * blen b).

(** Big-endian words. *)
Fixpoint wordsOf (b : bytes) : list Z :=
  match b with
  | a :: b' :: c :: d :: rest => (16777216 * a + 65536 * b' + 256 * c + d) :: wordsOf rest
  | _ => []
  end.
Definition bytesOf (x : Z) : bytes := [(x / 16777216) mod 256; (x / 65536) mod 256; (x / 256) mod 256; x mod 256].

(** 6.2.2, step 1: the message schedule, last word first. *)
Fixpoint schedule (n : nat) (w : list Z) : list Z :=
  match n with
  | O => w
  | S n' => schedule n' (add32 (add32 (sigma1 (nth 1 w 0)) (nth 6 w 0)) (add32 (sigma0 (nth 14 w 0)) (nth 15 w 0)) :: w)
  end.
(** Steps 2 to 4. *)
Record state := mkState { sa : Z; sb : Z; sc : Z; sd : Z; se : Z; sf : Z; sg : Z; sh : Z }.
Definition round (s : state) (kw : Z * Z) : state :=
  let t1 := add32 (add32 (sh s) (Sigma1 (se s))) (add32 (Ch (se s) (sf s) (sg s)) (add32 (fst kw) (snd kw))) in
  let t2 := add32 (Sigma0 (sa s)) (Maj (sa s) (sb s) (sc s)) in
  mkState (add32 t1 t2) (sa s) (sb s) (sc s) (add32 (sd s) t1) (se s) (sf s) (sg s).
Definition block (s : state) (w : list Z) : state :=
  let s' := fold_left round (combine K256 (rev (schedule 48 (rev w)))) s in
  mkState (add32 (sa s) (sa s')) (add32 (sb s) (sb s')) (add32 (sc s) (sc s')) (add32 (sd s) (sd s'))
          (add32 (se s) (se s')) (add32 (sf s) (sf s')) (add32 (sg s) (sg s')) (add32 (sh s) (sh s')).
Fixpoint blocks (n : nat) (s : state) (w : list Z) : state :=
  match n with
  | O => s
  | S n' => blocks n' (block s (firstn 16 w)) (skipn 16 w)
  end.
Definition start : state :=
  mkState (nth 0 H256 0) (nth 1 H256 0) (nth 2 H256 0) (nth 3 H256 0) (nth 4 H256 0) (nth 5 H256 0) (nth 6 H256 0) (nth 7 H256 0).
Definition Sum256 (b : bytes) : bytes :=
  let p := padded b in
  let s := blocks (Z.to_nat (blen p / 64)) start (wordsOf p) in
  flat_map bytesOf [sa s; sb s; sc s; sd s; se s; sf s; sg s; sh s].

(** [hex.EncodeToString]: two lower-case digits for each byte. *)
Definition hexChar (n : Z) : ascii := ascii_of_nat (Z.to_nat (if n <? 10 then 48 + n else 87 + n)).
Fixpoint EncodeToString (b : bytes) : string :=
  match b with
  | [] => ""
  | x :: b' => String (hexChar (x / 16)) (String (hexChar (x mod 16)) (EncodeToString b'))
  end.

(** corpus.go:74-78 [sha256namer]. *)
Definition sha256namer (b : bytes) : string := EncodeToString (Sum256 b).

(** corpus.go:23-26 [AddSuite], 28-35 [AddVectors], 37-45 [Vectors]; [None] is nil. *)
Definition AddSuite (c : corpus) (s : suite) : corpus := c ++ [s].
Definition AddVectors (c : corpus) (n : string) (vs : list vector) : corpus := AddSuite c (mkSuite n vs).
Fixpoint Vectors (c : corpus) (n : string) : option (list vector) :=
  match c with
  | [] => None
  | s :: c' => if String.eqb (stype s) n then Some (svectors s) else Vectors c' n
  end.
