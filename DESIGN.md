# Formal model of trunnel (Rocq/Coq 8.16.1)

The code under study is mmcloughlin/trunnel at the pinned commit in `/repo`.
It is read as text.  Nothing in `/repo` is built, run or changed.

`properties.jsonl` lists the properties (C01, C02, ...).  `MANIFEST.json` maps
each property to theorems.  This file says what is modelled and how each
property is proved.

## Layout (`rocq/theories`)

| file | content |
|---|---|
| `Base.v` | outcomes (`Ok`/`Err`/`Panic`), 64-bit wrap-around, association lists, byte strings |
| `Ast.v` | `ast/types.go` |
| `IntervalsModel.v`, `IntervalsProofs.v`, `Minimal.v`, `P_Intervals.v` | `internal/intervals` |
| `InspectModel.v`, `InspectProofs.v`, `P_Inspect.v` | `inspect` (resolver, branches) |
| `GoLang.v` | the fragment of Go that the generator emits: syntax and an interpreter |
| `GoMem.v` | the same fragment on a machine with memory |
| `MemSim.v`, `MemPath.v`, `MemExec.v`, `MemStep.v`, `MemFill.v`, `MemCall.v`, `MemMono.v` | the two machines agree on programs in which every object has one owner |
| `MemGen.v`, `MemSpec.v`, `MemTop.v`, `MemBad.v`, `MemEnds.v`, `P_Memory.v` | generated code is such a program; what callers see of memory |
| `WordSpec.v`, `MemWord.v`, `MemWordGen.v`, `P_Word.v` | 32-bit platforms: generated code with short lengths keeps its numbers within 32 bits |
| `TypedSpec.v`, `TypedExec.v`, `TypedGen.v`, `TypedProg.v`, `P_Typed.v` | values keep their Go types however calls end |
| `GenModel.v` | `gen/decl.go`: the generator, as a translation to that fragment |
| `GenPrint.v` | rendering of the emitted fragment to text, checked against the golden files of the repository |
| `GoText.v` | how Go reads a source text: tokens, semicolons, syntax, and declarations in the fragment of `GoLang.v` |
| `TextModel.v` | `gen/decl.go`, `gen/printer.go` at the level of text |
| `GoTestText.v`, `TestTextModel.v`, `TestTextProofs.v`, `P_TestText.v`, `GoldenTests.v` | `gen/tests.go`, `gen/fuzz.go` at the level of text; what Go and its tools read in it |
| `TextLex.v`, `TextParse.v`, `TextSim.v`, `TextDecl.v`, `TextProg.v`, `TextSame.v`, `TextCheck.v`, `TextOnce.v`, `P_Text.v` | the text, read as Go, is the program of `GenModel.v` |
| `GoldenText.v` | the committed files of `gen/tests`, read as Go, against the texts of the model (a check, not a proof) |
| `GenDecode.v` | a direct decoder with the meaning of the generated code, used as a stepping stone in proofs |
| `GenCheck.v` | static conditions on declarations under which the simulation holds |
| `GenSim.v`, `GenSimBody.v`, `GenSimProg.v` | running the generated code simulates the decoder |
| `GenTotal.v`, `GenMono.v`, `GenTerm.v`, `GenSafe.v`, `GenRecv.v`, `GenExt.v` | generation succeeds, fuel, termination, no panics, receiver, ignored bytes |
| `WireSpec.v`, `WireProofs.v`, `WireComplete.v`, `WireFacts.v` | independent specification of the wire format (inductive relations) and the decoder against it |
| `ReachSpec.v`, `ReachProofs.v`, `FaultProofs.v`, `P_Fault.v`, `P_Feed.v` | which members of a struct are reached on given data, and errors |
| `PackageSpec.v`, `PackageProofs.v`, `PackageFacts.v`, `PackageMore.v`, `ParseFacts.v`, `Guarded.v` | calls of a generated package, connected to the wire format |
| `GenSwitch.v` | generated conditions and switches against the resolver |
| `GenExamples.v`, `GenWitness.v` | concrete packages used for non-vacuity and refutations |
| `TvModel.v`, `TvConstraints.v`, `TvHeap.v`, `TvFacts.v`, `TvWitness.v`, `P_Tv.v` | `tv`: constraint maps, vector generation over a heap of maps and byte arrays, selectors |
| `TvClass.v`, `TvGood.v`, `TvLeaf.v`, `TvFrame.v`, `TvFields.v`, `TvField.v`, `TvUnion.v`, `TvSound.v`, `TvBytes.v`, `TvAccept.v` | a class of declarations, and why the parser accepts the vectors generated for it |
| `TvLive.v`, `TvCover.v`, `TvCovered.v` | which structs have vectors, and which cases of unions the vectors select |
| `ResDet.v`, `TvDet.v`, `P_Det.v` | independence of map iteration order |
| `TvAlone.v` | independence of slice capacities |
| `TvFinish.v` | termination of the test vector generator |
| `TvTidy.v` | the heap of constraint maps stays in order; unions with a length |
| `TvSucceed.v` | absence of errors of the test vector generator |
| `PkgModel.v`, `PkgSpec.v`, `PkgProofs.v`, `PkgFacts.v`, `P_Package.v` | `gen/core.go`, `gen/tests.go`, `gen/fuzz.go`, `tv/corpus.go`: what is written to disk |
| `TvScopes.v`, `HarnessModel.v`, `P_Harness.v` | `gen/tests.go`, `gen/fuzz.go`: what the emitted functions do when they are run |
| `PegModel.v` | the engine of `parse/internal/parser/gen-parser.go`, for any grammar; `parse/parse.go` |
| `PegGrammar.v` | the grammar value `g` and the actions, rule by rule |
| `SyntaxSpec.v`, `SyntaxForm.v` | specification: the language as a context-free grammar over code points, UTF-8, shapes of files, separators, numerals |
| `PegEngine.v`, `PegDescent.v`, `PegConsume.v`, `PegRefine.v`, `PegRules.v`, `PegRunes.v`, `PegUtf8.v`, `PegTop.v` | the engine on this grammar is a recursive descent parser that always ends |
| `PegLexical.v`, `PegSound.v`, `PegComplete.v`, `PegExact.v` | the descent parser accepts exactly the specified language |
| `PegSpace.v`, `PegShape.v`, `PegPrint.v`, `PegLiteral.v`, `PegCount.v`, `PegRestore.v` | consequences: separators, shapes, sources for files, literals, inline structs, backtracking |
| `GoldenExamples.v` | all packages of `gen/tests`: source text to generated text, against the committed files (a check of the model, not a proof) |
| `P_Syntax.v` | properties of source parsing |
| `GoTypes.v` | Go's static rules for the emitted fragment, as a boolean checker |
| `CompileCheck.v`, `CompileProofs.v`, `CompileProg.v`, `CompileNeeds.v` | conditions on declarations under which the package compiles, and that one of them is needed |
| `ScopeSpec.v`, `ScopeProofs.v`, `P_Compile.v` | which names a function body declares; properties of the generated source |
| `BuildModel.v`, `BuildProofs.v`, `BuildMore.v`, `BuildAgain.v`, `P_Build.v`, `P_Again.v` | `cmd/trunnel`: the build command, from source files to files on disk |
| `GoCost.v` | what running the emitted fragment costs, in steps and cells of memory |
| `CostSpec.v`, `CostDec.v`, `CostBody.v`, `CostInv.v`, `CostProg.v`, `CostRec.v`, `CostRecProg.v`, `P_Cost.v` | the price of a declaration, and that running the generated code stays within it |
| `SizeSpec.v`, `SizeProofs.v`, `SizeLeast.v`, `P_Size.v` | the lengths of messages, from the text of a declaration |
| `ReportSpec.v`, `PlaceSpec.v`, `PegReportTop.v`, `PegPlaces.v`, `PegLocal.v`, `P_Report.v` | positions and wording of syntax errors |
| `PegExp.v`, `PegNested.v` | how long parsing a source takes |
| `GenPrefix.v`, `P_Stream.v` | data that arrives in pieces |
| `SameSpec.v`, `SameProofs.v`, `P_Same.v`, `PegJoin.v`, `Moved.v`, `P_Join.v`, `RenameSpec.v`, `RenameProofs.v`, `P_Rename.v` | declarations with the same meaning: more files, other files, other names |
| `ExtSpec.v`, `ExtProofs.v`, `P_Ext.v`, `FwdSpec.v`, `FwdProofs.v`, `P_Fwd.v` | revised declarations: old messages for new parsers, new messages for old parsers |
| `GroupSpec.v`, `GroupProofs.v`, `P_Group.v` | members moved into structs of their own |
| `RoundSpec.v`, `RoundProofs.v`, `P_Round.v` | a writer for the wire format, and the parser as its inverse |
| `GoConc.v` | goroutines on the memory of `GoMem.v`: interleaved steps, accesses, races |
| `ConcAlone.v`, `ConcTouch.v` | a goroutine alone is a call; the accesses counted are all there are |
| `ConcSafe.v`, `ConcStep.v`, `ConcExec.v`, `ConcFill.v`, `ConcCall.v`, `ConcPool.v`, `ConcSpec.v`, `ConcTop.v`, `P_Conc.v` | goroutines that parse at the same time |
| `IntervalsSpec.v`, `RandomProofs.v`, `InspectSpec.v`, `BranchProofs.v`, `P_Cover.v` | sets and resolution: specifications, random elements, cases of unions, coverage |
| `P_Parse.v`, `P_Gen.v` | properties of generated parsers and of the generator |

`*Model.v` files contain definitions only (no proofs).  `P_*.v` files contain
only property theorems, each closed by `exact`, with `Print Assumptions` and a
non-vacuity `Example` beside it.

## Modelling conventions

* Integers are `Z`; every place where Go wraps is written with an explicit
  `mod 2^64` (or a signed re-interpretation).
* A Go panic is the value `Panic`; an error return is the value `Err`; an
  endless loop is running out of every amount of fuel.
* Go maps are association lists; iteration order, where the code ranges over a
  map, is an explicit permutation argument that theorems quantify over.
* The random source (`random.Interface`) is an arbitrary stream; theorems
  quantify over all streams.
* Slices are lists where no write through an alias can happen (the data given
  to a parser is only read), and heap objects with capacity where aliasing
  matters (`cross` in `tv`).
* `snaker.SnakeToCamel` is a third-party function that is not in the
  repository.  It is a parameter `camel`, quantified over in theorems.
* Error texts are kept where they are observable.

## Plan per property

* **C01, C02, C03** - `thresholds` is modelled with its edge list, sort and
  sweep.  `sort.Sort` is modelled by insertion sort, together with a proof that
  every sorted permutation of the edges is the same list.  The main lemma says
  that the sweep returns exactly the points covered at least `thresh` times.
  C03 is false for an empty subtrahend (`complement(nil)` is empty); this is
  proved as a refutation next to the guarded theorem.
* **C04, C05** - `RandomWithGenerator`, `randuint64n`, `randuint64` over a
  stream of `Int63` values.  C05 is false for the set of all 64-bit integers.
* **C06-C09** - the resolver as three maps; `AddFile` takes the iteration
  orders as arguments.  C08 and C09 are false; refuted with witnesses, and the
  parts that hold are proved.
* **C10, C11** - `Resolver.Intervals` and `NewBranches`/`Lookup` against the
  boolean expression emitted by `conditional` and the emitted `switch`, both
  evaluated by the Go semantics of `GoLang.v`.
* **C12** - compiler correctness.  The generator is a function from the AST to
  a deep embedding of Go statements; the interpreter of `GoLang.v` runs them.
  `WireSpec.v` describes the format by inductive relations that do not mention
  generated code.  Soundness: a successful run implies the relation.
  Completeness: the relation implies a successful run, or a panic if array
  elements may be empty; with lengths of 32 bits (by width or by constraint) there is no panic (C13).
* **C13, C14** - consequences of the simulation used for C12; refuted without
  the width restriction (C13) and for consumption-free remainder elements and
  recursion (C14).
* **C15-C17, C19-C26** - proved about runs of the generated code, through C12.
* **C18** - false; refuted with a witness.  With a default of `fail` a tag that
  no case lists is rejected (`_partial`).
* **C27, C48** - results, errors and parsed fields do not depend on the
  receiver (C27).  The whole receiver value does: fields of union cases that
  are not taken keep stale values (C48, refuted).  When every field was parsed the outcome is the same for every
  receiver (`_partial`).
* **C28** - the generator as a function returning `Ok` or `Panic`.
* **C29** - the declarations in a function body as lists of names; the receiver,
  `data`, `cur` and contexts are not among them under the static checks;
  refuted for a struct whose name starts with `i` and has a nulterm field.
* **C52** - a type checker for the Go fragment (`GoTypes.v`): scopes, unused
  variables, untyped constants, assignability, calls, package-level names.
  Under conditions on names the package compiles exactly if integers fit the
  fields they are compared with.  Refuted without the conditions.
* **C30** - constraint maps as nested association lists.
* **C31** - the vector generator in a state monad with a heap of constraint
  maps.  False in general; refuted with witnesses, one of them the repository's
  example gen/tests/unionbasic.  Proved for a class of declarations given by a
  boolean check (lengths and tags may have constraints if the values that the
  generator chooses always meet them): a partly generated vector is good if
  its bytes encode the members generated so far for all values of earlier
  fields and contexts that agree with its constraints; every step of the
  generator keeps the vectors good and leaves other vectors alone.
* **C32** - `cross` over a heap of backing arrays with capacities; refuted.  For
  declarations whose array elements have at most one vector (`TvAlone.v`): two
  runs with different capacities are compared step by step; the arrays of
  vectors in use are disjoint or full, so both runs read the same bytes.
* **C33, C36** - direct.
* **C34** - `lenconstrain` directly.  For the union as the generator runs it,
  `TvTidy.v` shows that every step keeps the heap of maps in order.
* **C35** - refuted with four witnesses: an unreachable default and a range in
  the wrong order panic; a struct that contains itself and a default that takes
  all 64-bit tags never return.  `TvFinish.v` proves the positive part for
  declarations without these: the result settles on a corpus or an error as the
  fuel grows.  The random source is any stream in which the word zero comes up
  again from every position (so that the rejection loop ends).
* **C57** - refuted with three witnesses.  `TvSucceed.v`: all maps in use inside
  a struct that refers to no context have the same context entries, and a nested
  struct leaves no local entries, so merging the maps of array elements never
  finds a conflict; all other errors come from undefined or overlapping things,
  which the class excludes.
* **C59** - refuted: two unions on one tag can leave a struct without vectors; a
  tag that is also the length of an array keeps a case from being selected.  For
  the class of C31 and the further check of `TvLive.v` (a tag or length of a union
  is not used by later members; cases have plain members) `TvCover.v` follows one
  vector through the loops: the loop over branches makes one for every case, its
  tag is recorded, and later steps extend the vector and keep what is recorded.
* **C37, C39** - a file system as a map from paths to contents with an
  arbitrary failure oracle.
* **C38** - refuted (context declared but never used); guarded theorem.
* **C40-C45, C49, C50** - the PEG engine as an interpreter over a grammar given
  as data, with the trunnel grammar transcribed rule by rule.  The engine is
  shown to be a set of recursive descent functions, these are shown to accept
  exactly a context-free grammar, and the other properties are proved of that
  grammar.
* **C46** - direct.
* **C47** - false; refuted with a witness.  Minimal when no two intervals merely
  touch (`_partial`).
* **C51** - two runs with different iteration orders, related step by step: the
  same arrays, and constraint maps with the same entries.
* **C53-C56** - the build command composed of the models of its parts: source
  parser, generator, vectors, file system.  C53-C55 follow from the plan of
  `gen.Package` (C39) and the language of the source parser (C46, C49); C56 is
  C31 carried to the files on disk, and is refuted in general.
* **C58** - the outcome of a build as a function of the outcomes of the two
  generators; C12, C31, C35 and C57 put together for what is on disk.
* **C60, C61** - `GoCost.v` charges one unit per statement, loop test and node of
  an expression, one per byte for `bytes.IndexByte` and string conversions, and,
  for memory, one per cell allocated.  `CostSpec.v` computes a price from the text
  of a declaration; induction over the generated code, side by side with the
  decoder, bounds the cost by the price times the bytes taken.  Refuted in general
  with a count of empty elements, with a struct that contains itself at once, and
  with a count of elements that are missing.  For the last the price may count in
  room for as many elements as the width of the length field allows
  (`countsBelow`) or as its constraint allows (`countsWithin`, for receivers whose
  integers are zero or allowed); `CostInv.v` shows that fields keep to their widths
  and constraints.  Structs that contain themselves
  (`CostRec.v`): a call that takes no byte costs at most a price that grows with
  its rank; one that takes bytes returns a bonus, the larger the smaller its rank,
  which pays for the calls around it that have not taken a byte yet.
* **C62-C65** - `PegReport.v` is the engine with positions, the farthest failure,
  the texts of errors and the count of expressions; erasing these gives the engine
  of C40 (`PegReportProofs.v`).  C62: every position the engine passes through is
  a place in the text (`PegPlace.v`); false in front of a newline, where the
  column is zero on the next line.  For sources that are not UTF-8 (`PlaceSpec.v`,
  `PegPlaces.v`) a stray byte counts as one character.
  `PegKinds.v`: what every report says is true
  of the text at its place.  C63: sorting.  C64: the engine never looks
  more than ten bytes past the farthest failure, by a check of the shape of the
  grammar; two runs on texts with a common start are related step by step.
  C65: a lower bound on the expressions evaluated, by running the engine on a text
  with a hole whose cost is known; false that they are bounded by a polynomial.
  Upper bounds by an analysis of the grammar (`PegSpend.v`): a table gives a bound
  to every rule, and every body is checked to stay within it.  `PegUpper.v`:
  powers of 4/3.  `PegBalance.v` and `PegNestCost.v`: what an expression takes has
  balanced braces, so that the depth of the rest of the text bounds the structs
  that are still to be read inside of each other.
* **C66-C68** - `GoMem.v` runs the same statements on a machine with memory:
  pointers, slices that share arrays, capacities, a word size.  `MemSim.v` to
  `MemCall.v` relate the two machines step by step for programs in which every
  object has one owner and the input is only read (`okB`, a syntactic discipline);
  `MemGen.v` shows that all generated methods keep to it.  The receiver may hold
  anything before the call.  `MemMono.v`: the bound on the length of runs does not
  matter.  `MemBad.v` adds that runs which have not ended, or ask for too long a
  slice, do so on both machines.  False on 32-bit platforms, but true there if
  lengths come from fields of at most 16 bits and memory holds what its types say
  (`MemWord.v`: a system of ranges for expressions that keeps both word sizes in
  step; `MemWordGen.v`: generated code is typable in it).
* **C69** - the decoder run on data and on longer data, related step by step
  (`GenPrefix.v`): the same result, or an error that data is missing and any success
  on the longer data takes more than the beginning.
* **C70, C71** - `SameSpec.v` says when two sets of declarations agree up to the
  spelling of integers; the decoders for both are then equal (`SameProofs.v`).  The
  same declarations in larger files are a special case.  For the same declarations in
  other files (`Moved.v`) the checks of GenCheck.v come out the same, and what passes
  them is generated.
* **C72** - on the grammar of SyntaxSpec.v: a parse of the first text is also a parse
  in front of a line break and a further text (`PegJoin.v`); conversely a parse of the
  whole begins with the declarations of the first part, since the grammar is
  deterministic.  The parser enters through C49.  Packages: C08, C70.
* **C73** - renaming as a function on files (`RenameSpec.v`); the decoders before and
  after are related field by field (`RenameProofs.v`).  Values are compared after
  erasing the names of types and fields, in the order of declaration.
* **C74** - the plan of a build (C39) is a function of the sources (`BuildAgain.v`); when
  nothing fails, all its steps up to the first impossible one are done, and a file
  that is written has a content independent of what was there.
* **C75** - a draw is a word reduced to as many bits as the number of elements needs;
  exchanging two remainders permutes the words, hence the pairs of draws
  (`RandomUniform.v`).
* **C76** - a relation between declarations by meaning (`ExtSpec.v`); the decoders of
  both are run side by side (`ExtProofs.v`): the outcome of the new one is that of the
  old one unless the old one refuses.
* **C77** - a second relation (`FwdSpec.v`); whenever the newer decoder succeeds so does
  the older one (`FwdProofs.v`).  Added members set only their own fields and leave an
  end of their input; that the older decoder is not stuck is `never_stuck` of
  PackageFacts.v.
* **C78** - a writer that computes the bytes of a value from the value alone, and a
  predicate that says which values fit a struct (`RoundSpec.v`).  Both are compared with
  the wire format of WireSpec.v: every encoding is the written one and its value fits
  (induction on the encoding), and what fits is encoded by its written bytes (induction
  on the depth of the value and the members; `RoundProofs.v`).  C12 leads from there to
  the generated code.
* **C79** - spans of lengths as a function of the declaration (`SizeSpec.v`); induction on
  the decoder, with the invariant of `GenSafe.v` that fields parsed so far
  keep to their widths and constraints, gives
  that what is taken is in the span (`SizeProofs.v`).  For plain declarations the decoder
  is run on zeros (`SizeLeast.v`).
* **C80** - goroutines as trees of steps, a pool of them with one memory (`GoConc.v`).  A
  goroutine that owns some objects is safe if every step reads only these or what nobody
  writes, writes only these, and leaves it safe whatever others do to the rest
  (`ConcSafe.v`).  The simulation of C66-C68 is repeated for goroutines, giving that calls
  of generated methods are safe (`ConcStep.v` to `ConcCall.v`).  Goroutines that are safe
  with separate objects stay so (`ConcPool.v`).  They end since the tree of each is well
  founded.
* **C81** - `visits` relates a call to the places it gets to, `faulty` and `bursting` say what
  can be wrong at a place (`ReachSpec.v`).  One direction is that of the errors in C16-C26;
  the other follows the decoder down to the part that fails (`FaultProofs.v`).
* **C82** - the loop as a relation over calls (`P_Feed.v`); from C12, C21, C27 and C81 by
  induction over the messages.
* **C83** - the bodies of emitted tests and fuzz functions as functions (`HarnessModel.v`); their
  verdicts are those of C81 for the parser they call.  That constraints only name contexts
  of the struct follows the generator, with the scopes that each map may have (`TvScopes.v`).
* **C84** - the relation between arrangements is a definition of `GroupSpec.v`; one simulation
  between the decoders of both, in both directions of running out of fuel (`GroupProofs.v`).
* **C85** - types of values are a definition of `TypedSpec.v`.  A typing of the statements of the
  Go subset, kept by every step however it ends (`TypedExec.v`); generated code has it
  (`TypedGen.v`); the typing of values means that of the specification (`TypedProg.v`).
* **C86** - the printing functions are modelled again at the level of text (`TextModel.v`).  A
  reader for Go source is a specification of its own (`GoText.v`): a scanner with automatic
  semicolons, precedence of operators, statements, declarations, and their meaning in the fragment
  of `GoLang.v`.  Each line that is printed is shown to be read back as the statement of
  `GenModel.v`; texts compose because every piece leaves the scanner between tokens.
* **C87** - the same for `gen/tests.go` and `gen/fuzz.go` (`TestTextModel.v`).  Which declarations
  are tests over a table of bytes, and fuzz functions, is specified on the syntax of `GoText.v`
  (`GoTestText.v`).  Composite literals are read by induction on their elements; the 256 bytes are
  checked one by one.  Running the functions is C83, with the program that C86 reads.
* **C88** - `trunnel build` over the printed texts (`BuildTextModel.v`), with `imports.Process` as a
  function about which three things may be assumed.  For given sources this is the build of C53-C58
  with the texts put in for printing; so C55, C86 and C87 combine.  Without a package name the
  first tokens are those of `package type`.
* **C89** - a count of choices on the declarations (`CountSpec.v`), and an induction over the
  generator (`TvCount.v`): `cross` multiplies exactly, unions add up, clones and selections add
  nothing.  For the exponential family every step has an exact count.
* **C90** - rearranged declarations (`OrderSpec.v`) extend each other in the sense of C76, without
  any error that may go away; so C76 in both directions gives the same outcomes.
* **C91** - by C12 accepted data is an encoding, which is cut at the field.  By induction over the
  format, encodings see what follows only by its length, and do not see fields they do not refer to
  (`Indep.v`); so the pieces fit again around other bytes.  Refusals are by C81.  Encodings of other lengths
  (`IndepLen.v`) fit where nothing before looks at the end and nothing after holds a position.
* **C92** - printing of sets is modelled in `IntervalsText.v`, reading is a relation
  (`IntervalsTextSpec.v`).  Numbers, parts and spans have one reading each; what is printed has the
  intended one.
* **C93** - `sha256namer` with SHA-256 written out (`CorpusModel.v`).  Hexadecimal digits read back
  (`CorpusSpec.v`); files on disk are by C37.
* **C94** - lookup in a list of suites; names of suites are those of the defined structs (C33), which
  are distinct because the resolver accepted the files (C08).
* **C95** - `ContextSpec.v` says which context fields a struct refers to.  The decoder gives equal
  results with equal fuel, by induction over fuel and members.
* **C96** - the decoder of the members around the array does not depend on the fields in question
  (`UnrollProofs.v`), because lengths and tags are integer fields; the loop is unrolled.
* **C97** - `LocalSpec.v` lists the constants and structs that a declaration mentions.  Each printing
  function gives equal results under two resolvers that agree on these (`LocalProofs.v`).
* **C98** - `SwapProofs.v` shows for any two runs of members that, if their decoders agree up to fields
  nobody else refers to, whole structs that differ in these members parse alike.  It is applied to an
  integer and its bytes, and to an array and its two parts.
* **C99** - `PickProofs.v`: decoding a union whose tag holds `v` is decoding the members of the case taken
  for `v`, members leave the fields of others alone, and the fields of the other cases are not referred
  to (the struct without them is accepted), so they do not influence the rest.
* **C100** - `FrameProofs.v`: both kinds of length give an extent, the number of bytes taken.  A union
  with a length and an array of bytes with the same length succeed on the same extent; what the case does
  with the bytes does not depend on the fields around (`GroupProofs.v`).
* **C101** - at every depth of recursion the decoder with the constraint does what the one without does, or
  stops with the constraint error; which of the two depends on the integer, which later members keep.
* **C102** - `CarrySpec.v` rewrites references to the context into local ones.  `CarryProofs.v`: as long as the
  local fields hold what the context holds, both decoders do the same; the fields in question belong to
  the struct before, so no later member changes them.  Nested structs need only the other contexts.
* **C103** - `AltSpec.v` relates the spellings.  By mutual induction on the relation the decoders are equal on
  data (bytes, fewer than 2^63), and so are the fields of new values.
* **C104** - `ModProofs.v`: an outcome of the decoder within some bounds is the outcome of the other decoder for
  good beyond some other bounds.  By induction on the depth of calls; calls of changed structs are
  covered by the hypothesis, since the slices and contexts they get are valid.
* **C105** - `AltAllProofs.v`: by induction on the depth of calls the decoders of both programs are equal on
  data.  One step changes the spelling in one program (C103), the next changes the program.
* **C106** - `PlainSpec.v` adds up sizes.  By mutual induction on it the decoder, beyond some bound, takes that many
  bytes or finds the data too short; a constraint that excludes nothing is none (C103).
* **C107** - `P_CountKnown.v`: the members before the array do not touch it and agree (UnrollProofs.v), the two arrays run
  the same loop, and from then on all fields agree.  The count is not changed after it was read (PickProofs.v).
* **C108** - `IgnoreSpec.v` has the replacement.  By induction on it the decoders agree but for the array, once the bound
  on iterations is at least the length of the data; the other members do not refer to the array.
* **C109** - `WithinSpec.v` puts one member in the place of another at any depth.  By induction on it the decoders agree but
  for the two fields; names of other fields differ from theirs, and references cannot mean the array.
* **C110** - the decoders give the same, or the first gives the error of the constraint and what the second leaves in the
  field does not meet it; members after the union cannot change the field.  By induction on `within`.
* **C111** - the induction of C109 with the two kinds of arrays in the place in question; what a context has in a field
  does not depend on the fields read so far.
* **C112** - a tag that was read fits its width and meets its constraint, so the case taken is the same without the one that is
  never taken; the rest does not depend on its fields.
* **C113** - `reads` says which members a tag selects, by `takes` of `InspectSpec.v`.  The induction of C109 with no fields in
  question; the decoder of a union runs the members that are read.

## Trusted base

* Coq's kernel (and `coqchk`).
* `Print Assumptions` is run under every property theorem.  The answer is
  `Closed under the global context` for every one of them: no axiom is used,
  neither of the standard library nor of our own.
* `coqchk` lists the axioms of all loaded library files, among them seven of
  `Coq.ssr.ssrunder`.  They come with the standard library's tactics; no theorem
  depends on them.
* The correspondence between the Go source and the definitions, which is by
  reading; each definition cites file and lines.

## What is not modelled

* In the source parser: the limit of 2^64-1 expressions, the report made of a
  panic (there is none, C62), memoization, debug output, statistics other than
  the count of expressions, and the expression kinds the grammar does not use.
  The build command uses the model in which a failed parse is one error value.  The values that actions pass on as
  `interface{}` have one sum type; a failing type assertion is a panic value.
  The list of inline structs kept in the parser state is a value, not a slice.
* `golang.org/x/tools/imports`: it is assumed to keep the tokens of the text, except that it
  inserts imports and drops doubled parentheses (on the packages of `gen/tests` that is checked in
  `GoldenText.v`).  The Go compiler beyond `GoText.v` and `GoTypes.v`, the file system beyond a path-to-content map with failures (paths
  are lists of components; `filepath.Clean`, permissions and existing
  directories are not modelled), the naming function is a parameter of the build (C93 puts in SHA-256), wrapping of error texts.
* Memory: `make([]T, n)` always succeeds for a representable `n`.  A 4-byte
  count can ask for up to 32 GB in the real program.
* Costs: copying and slicing are charged as single steps; the unit costs are a choice, real times
  differ by constant factors.  Capacities of slices that are appended to are computed from their
  lengths, and how they grow is a parameter of C60 and C61 (at least by a fifth, at most to three
  times and 16 elements more).
* Values and memory: `GoLang.v` represents pointers and slices by what they lead
  to.  C66-C68 justify this against a machine with memory.  Left out there: slices
  of arrays that are fields (so the input cannot lie inside of the receiver's own
  array), memory running out, garbage collection.  In C80 steps of goroutines are whole
  expressions and stores, and all goroutines are calls of generated methods.  A nil input
  slice is an empty slice.
* Go compile errors outside the rules of `GoTypes.v`: unused imports and array
  types larger than the compiler allows.
* Flag handling and exit status of `cmd/trunnel` (the cli package), version
  metadata, `internal/test`, Docker/CI files.
