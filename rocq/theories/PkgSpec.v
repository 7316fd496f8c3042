(** Vocabulary for what Package and WriteCorpus do to the files. *)
From Coq Require Import ZArith String List Bool.
From Verif Require Import Base Ast InspectModel IntervalsModel GoLang GenModel GenPrint TvModel PkgModel.
Import ListNotations.
Open Scope string_scope.
Open Scope list_scope.
Open Scope nat_scope.

(** A step of a plan: write a file, once its contents are known. *)
Definition step := (path * outcome bytes)%type.

(** The contents of the files after some writes. *)
Fixpoint written (l : list (path * bytes)) (rd : path -> option bytes) (q : path) : option bytes :=
  match l with
  | [] => rd q
  | (p, b) :: l' => written l' (fun x => if path_eqb x p then Some b else rd x) q
  end.

(** [x], [f'] is what doing [plan] from [f] ends with: the first steps were
    done, completely and in order; the file of the step that stopped it, if any,
    is the only other one that may have changed; the result is [nil] only if all
    steps were done, and otherwise it is the failure of the step that stopped or
    an error of the file system. *)
Definition carriedOut (fails : nat -> option (string * option bytes)) (plan : list step) (f : fsys) (x : outcome unit) (f' : fsys) : Prop :=
  exists k l, k <= List.length plan /\ firstn k plan = map (fun pb => (fst pb, Ok (snd pb))) l /\
    flog f' = flog f ++ l /\ fcount f <= fcount f' /\
    (forall q, (x = Ok tt \/ forall s, nth_error plan k = Some s -> q <> fst s) -> fread f' q = written l (fread f) q) /\
    match x with
    | Ok _ => k = List.length plan
    | _ => (exists n e left, fcount f <= n < fcount f' /\ fails n = Some (e, left) /\ x = Err e) \/
           (exists p c, nth_error plan k = Some (p, c) /\ x = (_ <- c ;; Ok tt) /\ forall q, fread f' q = written l (fread f) q)
    end.

(** The files of a corpus. *)
Definition corpusFiles (namer : bytes -> string) (base : path) (c : corpus) : list (path * bytes) :=
  flat_map (fun s => map (fun v => (base ++ [stype s; "corpus"; namer (fst v)], fst v)) (svectors s)) c.
Definition known (l : list (path * bytes)) : list step := map (fun pb => (fst pb, Ok (snd pb))) l.

(** The data in the corpus. *)
Definition dataOf (c : corpus) : list bytes := flat_map (fun s => map fst (svectors s)) c.
(** Different data gets different names. *)
Definition noCollision (namer : bytes -> string) (l : list bytes) : Prop :=
  forall a b, In a l -> In b l -> namer a = namer b -> a = b.

Section Plan.
Variable render : program -> outcome bytes.
Variables renderTests renderFuzz : list emitted -> outcome bytes.
Variable namer : bytes -> string.
Variable camel : string -> string.
Variable dir : path.

(** What Package is to do. *)
Definition packagePlan (prog : outcome program) (vectors : outcome corpus) : list step :=
  (dir ++ ["gen-marshallers.go"], (p <- prog ;; render p)%outcome) ::
  if notImplemented vectors then []
  else match vectors with
       | Ok c => known (corpusFiles namer (dir ++ ["testdata"; "fuzz"]) c) ++
                 [(dir ++ ["gen-marshallers_test.go"], renderTests (CorpusTests camel c));
                  (dir ++ ["gen-fuzz.go"], renderFuzz (Fuzzers camel c))]
       | Err e => [(dir ++ ["gen-marshallers_test.go"], Err e)]
       | Panic m => [(dir ++ ["gen-marshallers_test.go"], Panic m)]
       | OutOfFuel => [(dir ++ ["gen-marshallers_test.go"], OutOfFuel)]
       end.

End Plan.
