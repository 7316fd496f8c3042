{"id": "C01", "title": "Building an interval set loses and adds no integer", "statement": "NewSet/Simplify of any list of intervals returns a list in which an integer is contained exactly when it is contained in one of the given intervals, and the returned intervals are sorted and pairwise disjoint; the call never panics.", "quantifier": "for every finite list of valid 64-bit intervals and every 64-bit integer", "why_tests_cant": "The sweep over sorted endpoints has to be right for every number and arrangement of intervals, including nested, touching and full-range ones; a test fixes a few arrangements.", "anchors": ["internal/intervals/intervals.go: Simplify, NewSet, Set.Contains, thresholds, edges.Less"]}
{"id": "C02", "title": "Overlap detection is exact", "statement": "Overlaps reports true exactly when some integer lies in two different entries of the list.", "quantifier": "for every finite list of valid 64-bit intervals", "why_tests_cant": "Requires all arrangements (equal endpoints, duplicates, single points), unbounded list length.", "anchors": ["internal/intervals/intervals.go: Overlaps, thresholds"]}
{"id": "C03", "title": "Subtract is set difference", "statement": "After s.Subtract(o), s contains x exactly when s contained x before and o does not contain x; the call never panics.", "quantifier": "for every pair of sets built by NewSet/IntType/Subtract and every 64-bit x", "why_tests_cant": "Edge cases at 0 and 2^64-1 (wrap of hi+1) and at an empty o are easy to leave out of a table of cases.", "anchors": ["internal/intervals/intervals.go: Set.Subtract, complement, thresholds"]}
{"id": "C04", "title": "Random elements are elements, and all of them can come out", "statement": "Whenever RandomWithGenerator returns, the result is contained in the set; and every element of the set is returned for some behaviour of the random source.", "quantifier": "for every non-empty set of total size below 2^64, every behaviour of the random source, every element", "why_tests_cant": "A random test samples; the claim is about all draws and all sets.", "anchors": ["internal/intervals/intervals.go: Set.RandomWithGenerator, randuint64n, randuint64"]}
{"id": "C05", "title": "Drawing a random element finishes", "statement": "RandomWithGenerator on a non-empty set returns after finitely many draws whenever the source eventually produces an acceptable word, and the rejection test accepts at least one word for every set.", "quantifier": "for every non-empty set and every random source", "why_tests_cant": "A loop with no exit cannot be found by a test that only checks returned values; the offending set (all 64-bit integers) is one in infinitely many.", "anchors": ["internal/intervals/intervals.go: randuint64n, Set.RandomWithGenerator, Interval.Size"]}
{"id": "C06", "title": "Resolver content does not depend on map iteration order", "statement": "AddFile goes over Go maps. Whether it succeeds, and on success what Struct/Context/Constant answer for every name, is the same for every iteration order.", "quantifier": "for every resolver, every file and all iteration orders of the three maps", "why_tests_cant": "Go randomises the order per run; a test sees one order per run and cannot enumerate them.", "anchors": ["inspect/inspect.go: Resolver.AddFile, Resolver.AddStruct, Resolver.SetConstant"]}
{"id": "C07", "title": "Definitions once accepted never change", "statement": "After any successful or failing sequence of Add/Set calls, a non-extern struct, a context and a constant that were ever visible keep answering the same value for ever; only an extern declaration can be replaced.", "quantifier": "for every finite history of AddStruct, AddContext, AddConstant, SetConstant, AddFile calls, including failed ones", "why_tests_cant": "It is an invariant over all histories of calls.", "anchors": ["inspect/inspect.go: Resolver.AddStruct, Resolver.AddContext, Resolver.SetConstant, Resolver.AddFile"]}
{"id": "C08", "title": "Acceptance of a set of files is independent of the order of the files", "statement": "If NewResolverFiles succeeds on a list of files then it succeeds on every reordering of the list and the answers to all lookups of non-extern structs, contexts and constants agree.", "quantifier": "for every list of files and every permutation of it", "why_tests_cant": "All permutations of all file lists.", "anchors": ["inspect/inspect.go: NewResolverFiles, Resolver.AddStruct", "cmd/trunnel/trunnel.go: build"]}
{"id": "C09", "title": "A failed AddFile leaves the resolver unchanged", "statement": "If AddFile returns an error then every lookup answers as it did before the call.", "quantifier": "for every resolver state, every file and every map iteration order", "why_tests_cant": "Needs every point at which the call can fail.", "anchors": ["inspect/inspect.go: Resolver.AddFile"]}
{"id": "C10", "title": "An integer list means the same thing to the parser generator and to the test-vector generator", "statement": "Resolver.Intervals(l), when it returns a set, contains x exactly when the Go condition generated for l evaluates to true on x; it returns an error exactly when a constant is undefined or two ranges of l share an integer.", "quantifier": "for every integer list with non-negative resolvable bounds and low <= high, every 64-bit x", "why_tests_cant": "Two independent implementations of the same notation must agree on all 2^64 values.", "anchors": ["inspect/inspect.go: Resolver.Intervals, Resolver.Integer", "gen/decl.go: generator.conditional"]}
{"id": "C11", "title": "Branch lookup agrees with the generated switch", "statement": "For a union, Branches.Lookup(x) returns the case whose body the generated parser executes for tag value x, and reports none exactly when the generated switch executes no case.", "quantifier": "for every union with resolvable cases and at most one default, and every value x of the tag type", "why_tests_cant": "Quantifies over unions with any number of cases in any order and over all tag values.", "anchors": ["inspect/branches.go: NewBranches, Branches.Lookup", "gen/decl.go: generator.parseUnionMember"]}
{"id": "C12", "title": "Generated parser accepts exactly the described format", "statement": "Running the generated Parse method for a struct on data succeeds exactly when data starts with an encoding of the struct as described by the trunnel declaration, and then the receiver holds exactly the described field values and the returned slice is exactly the bytes after that encoding; in all other cases it returns an error.", "quantifier": "for every well-formed set of declarations, every struct, every context value and every byte string of at most 2^44 bytes; well-formed means: names, widths and constants pass the static check, positions are outside length-limited parts, every union has a default (see C18), lengths are at most 32 bits wide (see C13), elements of remainder arrays are never empty and recursion consumes input (see C14)", "why_tests_cant": "It is a compiler-correctness statement: all programs, all inputs.", "anchors": ["gen/decl.go: Marshallers, generator.parse, generator.parseMember, generator.parseType, generator.parseArray, generator.parseUnionMember, generator.constrained"]}
{"id": "C13", "title": "Generated parser never panics", "statement": "Running the generated Parse on any data never causes an index, slice-bounds or makeslice panic.", "quantifier": "for every well-formed set of declarations whose length references are at most 32 bits wide or have a constraint that allows only such numbers, all contexts, all data (without the restriction it is false)", "why_tests_cant": "Robustness against all byte strings for all declarations; fuzzing samples.", "anchors": ["gen/decl.go: generator.parseArray, generator.constrained, generator.parseIntType, generator.parseType"]}
{"id": "C14", "title": "Generated parser terminates", "statement": "Running the generated Parse on any data returns (no endless loop, no unbounded recursion).", "quantifier": "for every well-formed set of declarations without consumption-free recursion or consumption-free remainder elements, all data (without that restriction it is false)", "why_tests_cant": "Termination for all inputs and all declarations.", "anchors": ["gen/decl.go: generator.parseArray, generator.parseType"]}
{"id": "C15", "title": "The returned slice is a suffix of the input", "statement": "When the generated Parse succeeds it returns a suffix of data (or the empty slice after an ignore directive outside any length constraint), so data is the consumed prefix followed by the returned slice.", "quantifier": "for every set of declarations and every data", "why_tests_cant": "All inputs.", "anchors": ["gen/decl.go: generator.parse, generator.constrained, generator.parseMember"]}
{"id": "C16", "title": "Integer constraints are enforced", "statement": "When the generated Parse succeeds, every field declared with `IN [...]` that was parsed holds a value in the declared list; when a parsed value is outside the list Parse returns the error \"integer constraint violated\".", "quantifier": "for every integer width, every integer list and every data", "why_tests_cant": "All values of the field and all lists.", "anchors": ["gen/decl.go: generator.parseIntType, generator.conditional"]}
{"id": "C17", "title": "Union case selection", "statement": "The body executed for a union is that of the first case in declaration order whose list contains the tag value, or of the default case if there is none, wherever the default is written; no other case's fields change. A `fail` case always makes Parse return an error.", "quantifier": "for every union, all tag values, all data", "why_tests_cant": "All unions and all tag values.", "anchors": ["gen/decl.go: generator.parseUnionMember, generator.parseMember"]}
{"id": "C18", "title": "A union without a matching case is rejected", "statement": "If no case contains the tag value and there is no default, Parse fails (the manual says `default: fail` is understood).", "quantifier": "for every union without default and every unmatched tag value", "why_tests_cant": "Needs the unmatched values of every union.", "anchors": ["gen/decl.go: generator.parseUnionMember", "docs/manual.html: unions"]}
{"id": "C19", "title": "Length-constrained members occupy exactly the announced bytes", "statement": "A union `with length f` that parses successfully takes exactly the number of bytes held in f, and one `with length ..-N` or an array `[..-N]` leaves exactly N bytes; the content never sees bytes outside its extent and unused bytes inside it are an error.", "quantifier": "for every declaration and every data", "why_tests_cant": "All lengths and all data.", "anchors": ["gen/decl.go: generator.constrained"]}
{"id": "C20", "title": "eos means end of data", "statement": "A struct ending in eos parses successfully only if nothing remains, and the returned slice is then empty.", "quantifier": "for every struct ending in eos and every data", "why_tests_cant": "All data.", "anchors": ["gen/decl.go: generator.parseMember, generator.assertEnd"]}
{"id": "C21", "title": "Bytes after the encoding do not matter", "statement": "For a struct without remainder arrays, leftover lengths, eos or ignore outside a length constraint: if Parse succeeds on d returning r then on d followed by any e it succeeds with the same receiver value and returns r followed by e.", "quantifier": "for every such struct, all d, r, e", "why_tests_cant": "Quantifies over all extensions of all inputs.", "anchors": ["gen/decl.go: generator.parse"]}
{"id": "C22", "title": "Parsing loses no information", "statement": "If two inputs parse to equal receiver values with equal contexts, and no ignore directive was used, the consumed bytes are equal.", "quantifier": "for every well-formed struct without ignore, all pairs of inputs", "why_tests_cant": "Relates all pairs of inputs.", "anchors": ["gen/decl.go: generator.parse"]}
{"id": "C23", "title": "NUL-terminated strings", "statement": "A nulterm field holds exactly the bytes up to the first NUL, contains no NUL, and the NUL itself is consumed; if there is no NUL Parse fails.", "quantifier": "for all data", "why_tests_cant": "All data.", "anchors": ["gen/decl.go: generator.parseType (NulTermString)"]}
{"id": "C24", "title": "Position fields", "statement": "A `@ptr` field holds the number of bytes between the start of the data given to the enclosing struct's Parse and the point reached.", "quantifier": "for every struct and data in which the field is outside any length constraint", "why_tests_cant": "All layouts and data.", "anchors": ["gen/decl.go: generator.parseType (Ptr)"]}
{"id": "C25", "title": "Array lengths", "statement": "After a successful Parse an array declared with a fixed size or with a length field holds exactly that many elements, and the element at each index is the parse of its own bytes in order; a remainder array uses up all bytes of its extent.", "quantifier": "for every element type, size, length value and data", "why_tests_cant": "All sizes and data.", "anchors": ["gen/decl.go: generator.parseArray"]}
{"id": "C26", "title": "Nested structs behave as their own parser", "statement": "A struct-valued field receives exactly the value that the nested struct's own Parse gives on the remaining bytes with the same-named contexts, and parsing continues with the slice it returned; its error is the error of the whole parse.", "quantifier": "for every nesting of structs and all data", "why_tests_cant": "All nestings.", "anchors": ["gen/decl.go: generator.parseType (StructRef), contextArgs"]}
{"id": "C27", "title": "Parse result depends only on the data", "statement": "ParseX(data, ctx...) is a function of data and contexts. Whether x.Parse(data, ctx...) succeeds, fails or panics, the slice or error it returns, and the value of every field it parses do not depend on what x held before.", "quantifier": "for all data, contexts and previous receiver contents", "why_tests_cant": "All previous contents of the receiver.", "anchors": ["gen/decl.go: generator.parseConstructor, generator.parse"]}
{"id": "C28", "title": "Code generation never panics on resolvable input", "statement": "Marshallers returns (code or an error) without panicking for every list of files produced by the parser.", "quantifier": "for every list of parsed files in which struct and constant references resolve (it panics exactly when some reference does not)", "why_tests_cant": "All ASTs the parser can produce.", "anchors": ["gen/decl.go: Marshallers, generator.integer, generator.parseType, generator.structMemberDecl"]}
{"id": "C29", "title": "Generated code refers only to variables in scope with the intended meaning", "statement": "In the generated Parse method every use of the receiver, `cur`, `data` and the context parameters refers to that variable and not to a local of the same name, and no declaration clashes.", "quantifier": "for every well-formed set of declarations", "why_tests_cant": "Depends on the names chosen by the user; tests use a handful of names.", "anchors": ["gen/decl.go: generator.structure, generator.parseType, generator.parseArray, generator.constrained, contextSignature"]}
{"id": "C30", "title": "Merging constraints is conflict-checked union", "statement": "Merge(c,d) succeeds exactly when c and d agree wherever both are defined, the result answers as c or d, neither argument changes, and the outcome is the same for every map iteration order; Clone gives an independent copy.", "quantifier": "for all constraint maps and all iteration orders", "why_tests_cant": "All maps, all orders.", "anchors": ["tv/constraints.go: Constraints.Merge, Constraints.Update, Constraints.Clone, Constraints.Set"]}
{"id": "C31", "title": "Every generated test vector is accepted by the generated parser", "statement": "For every struct whose suite is emitted into the generated tests, ParseX on each vector returns no error.", "quantifier": "for every list of files, every behaviour of the random source, every vector", "why_tests_cant": "All declarations and all random choices; the generated test itself only checks one seed.", "anchors": ["tv/generator.go: generator.structure, generator.members, generator.union, generator.array, generator.intType", "gen/tests.go: CorpusTests"]}
{"id": "C32", "title": "Test vectors do not share memory", "statement": "Building one vector never changes the bytes of another one that was already built.", "quantifier": "for every list of vectors combined by the generator and every capacity the runtime gives to append", "why_tests_cant": "Depends on slice capacities and the order of appends.", "anchors": ["tv/generator.go: cross, generator.members"]}
{"id": "C33", "title": "One suite per defined struct, in order", "statement": "A successful GenerateFiles returns one suite per non-extern struct, in file and declaration order, with the struct's name.", "quantifier": "for every list of files", "why_tests_cant": "All lists of files.", "anchors": ["tv/generator.go: generator.files"]}
{"id": "C34", "title": "Length-constrained vectors carry their length", "statement": "Every vector produced for a union `with length f` records for f exactly the number of bytes of the union, or f was already fixed to that number.", "quantifier": "for every union and every list of candidate vectors", "why_tests_cant": "All candidate vectors.", "anchors": ["tv/generator.go: generator.lenconstrain"]}
{"id": "C35", "title": "Test vector generation finishes without panicking", "statement": "GenerateFiles returns a corpus or an error for every list of files that Marshallers accepts.", "quantifier": "for every list of files and every behaviour of the random source", "why_tests_cant": "All declarations, including unions whose cases cover the whole tag type, 64-bit tags and self-referential structs.", "anchors": ["tv/generator.go: generator.union, generator.field, generator.structure", "internal/intervals/intervals.go: Set.RandomWithGenerator", "inspect/inspect.go: Resolver.Intervals"]}
{"id": "C36", "title": "Selectors only select", "statement": "RandomSampleSelector(n) returns min(n, len) of the given vectors at distinct positions, all of them and in order if there are at most n; Exhaustive returns its argument.", "quantifier": "for every list, every n >= 0 and every permutation drawn", "why_tests_cant": "All permutations.", "anchors": ["tv/selector.go: RandomSampleSelector, Exhaustive"]}
{"id": "C37", "title": "Corpus files hold the vectors", "statement": "After a successful WriteCorpus every vector of every suite is readable at <type>/corpus/<name of its data> with exactly its data, and no file outside these paths has changed; if a write fails, everything written before it is complete.", "quantifier": "for every corpus, every prior file system content, every failure point, provided the naming function does not collide on the data", "why_tests_cant": "All corpora and all failure points.", "anchors": ["tv/corpus.go: writecorpus, WriteCorpus"]}
{"id": "C38", "title": "Emitted tests and fuzzers call the parser with the right arguments", "statement": "For every suite for which CorpusTests/Fuzzers emit a function, the emitted call supplies exactly the arguments ParseX takes.", "quantifier": "for every list of files", "why_tests_cant": "Depends on contexts declared but not used by the generator.", "anchors": ["gen/tests.go: CorpusTests, constrained", "gen/fuzz.go: Fuzzers", "gen/decl.go: contextSignature"]}
{"id": "C39", "title": "Package writes files in a fixed order and stops at the first failure", "statement": "Package writes gen-marshallers.go before anything else, writes nothing if code generation fails, writes only gen-marshallers.go and returns nil if vector generation is not implemented for the input, and otherwise writes corpus, tests, fuzzers in this order, returning the first error; an error means no later file was written.", "quantifier": "for every input and every failure point of the file system", "why_tests_cant": "All failure points.", "anchors": ["gen/core.go: Package"]}
{"id": "C40", "title": "The source parser terminates on every input", "statement": "parse.String returns for every string.", "quantifier": "for every input string", "why_tests_cant": "All strings.", "anchors": ["parse/internal/parser/gen-parser.go: parser.parse, parser.parseExpr, g", "parse/trunnel.pigeon"]}
{"id": "C41", "title": "Backtracking leaves no trace", "statement": "When an alternative fails, position and recorded inline declarations are as before it was tried; hence each inline struct of an accepted file is declared exactly once.", "quantifier": "for every grammar expression and every input", "why_tests_cant": "All inputs and all backtracking points.", "anchors": ["parse/internal/parser/gen-parser.go: parser.parseSeqExpr, parser.parseChoiceExpr, parser.restoreState", "parse/trunnel.pigeon: StructRef"]}
{"id": "C42", "title": "Parsed files have the promised shape", "statement": "Every AST returned by parse.String has integer sizes 8, 16, 32 or 64, non-empty identifiers, non-negative literals, non-empty integer lists, arrays only of integers, chars and structs, remainder arrays and eos only at the end of a struct, ignore and fail only inside unions.", "quantifier": "for every accepted source text", "why_tests_cant": "All texts.", "anchors": ["parse/trunnel.pigeon", "parse/internal/parser/gen-parser.go: on* actions"]}
{"id": "C43", "title": "Printing then parsing gives the AST back", "statement": "Every AST of the promised shape has a source text that parse.String maps back to an equal AST.", "quantifier": "for every AST of the promised shape", "why_tests_cant": "All ASTs.", "anchors": ["parse/trunnel.pigeon", "parse/parse.go: String"]}
{"id": "C44", "title": "Integer literals", "statement": "A decimal, octal or hexadecimal literal is read as its numeric value, or rejected when it is 2^63 or more.", "quantifier": "for every digit string", "why_tests_cant": "All digit strings.", "anchors": ["parse/trunnel.pigeon: IntLiteral"]}
{"id": "C45", "title": "Comments and blanks do not change the meaning", "statement": "Replacing any non-empty separator in an accepted text by any other non-empty sequence of blanks and comments gives the same AST.", "quantifier": "for every accepted text built from tokens and every choice of separators", "why_tests_cant": "All separators.", "anchors": ["parse/trunnel.pigeon: _, __, Skip, Comment"]}
{"id": "C46", "title": "Files is all or nothing", "statement": "parse.Files returns the ASTs of all files in order, or an error and no AST if any file fails.", "quantifier": "for every list of files", "why_tests_cant": "All lists and failure positions.", "anchors": ["parse/parse.go: Files"]}
{"id": "C47", "title": "Simplify returns a minimal list of intervals", "statement": "As its comment promises, no shorter list of intervals covers the same integers as the list Simplify returns.", "quantifier": "for every finite list of valid intervals and every other list covering the same integers", "why_tests_cant": "Minimality compares the result with every other list of intervals.", "anchors": ["internal/intervals/intervals.go: Simplify"]}
{"id": "C48", "title": "A reused receiver holds the same value as a fresh one", "statement": "After x.Parse(data, ctx...) succeeds, x holds the same value whatever it held before.", "quantifier": "for all structs, data, contexts and previous receiver contents", "why_tests_cant": "All previous contents of the receiver.", "anchors": ["gen/decl.go: generator.parse, generator.parseUnionMember"]}
{"id": "C49", "title": "The accepted language and its meaning", "statement": "parse.String accepts exactly the texts of the documented grammar, read as a context-free grammar with longest-match words, and returns the AST the grammar assigns; no text has two meanings.", "quantifier": "for every byte string and every AST", "why_tests_cant": "All byte strings; the generated parser is an ordered-choice machine whose language is not evident from the grammar.", "anchors": ["parse/trunnel.pigeon", "parse/internal/parser/gen-parser.go: g, parser.parseExpr, on* actions"]}
{"id": "C50", "title": "Only UTF-8 sources are accepted", "statement": "A source accepted by parse.String is valid UTF-8, also inside comments.", "quantifier": "for every byte string", "why_tests_cant": "All byte strings.", "anchors": ["parse/internal/parser/gen-parser.go: parser.read, parser.parse"]}
{"id": "C51", "title": "Output does not depend on map iteration order", "statement": "Two runs over the same files, with the same random source and selections, give the same result and write the same bytes to the same files, whatever the order in which Go iterates over its maps.", "quantifier": "for all lists of files, all iteration orders of all maps visited, all random sources, all selections and all file system failures", "why_tests_cant": "Go randomises map iteration; a test run sees one order.", "anchors": ["inspect/inspect.go: Resolver.AddFile", "tv/constraints.go: Constraints.Update", "gen/core.go: Package"]}
{"id": "C52", "title": "The generated package compiles", "statement": "Whenever gen.Marshallers returns code, a Go compiler accepts it: names resolve, nothing is declared twice in a scope, every local is used, types match, constants fit the types they are compared with, functions end in a return.", "quantifier": "for every list of files the parser and resolver accept", "why_tests_cant": "Depends on every name and number a user may write; tests compile a handful of packages.", "anchors": ["gen/decl.go: generator.files, generator.structure, generator.parse, generator.conditional", "gen/core.go: Package"]}
{"id": "C53", "title": "A build of bad sources leaves no trace", "statement": "`trunnel build` without file names, or with a file that cannot be read or parsed, returns an error and changes no file. Otherwise it does what gen.Package does with the parsed files.", "quantifier": "for all file systems, file names and contents", "why_tests_cant": "All file contents; a partial build would only show for a failing file after good ones.", "anchors": ["cmd/trunnel/trunnel.go: build", "parse/parse.go: Files"]}
{"id": "C54", "title": "A build changes only its own outputs", "statement": "Whatever the outcome of `trunnel build`, a file that differs afterwards is gen-marshallers.go, gen-marshallers_test.go or gen-fuzz.go in the output directory, or a corpus file below testdata/fuzz/<struct>/corpus of a struct defined in the sources.", "quantifier": "for all sources, output directories and failures of file operations", "why_tests_cant": "All points at which a file operation can fail.", "anchors": ["cmd/trunnel/trunnel.go: build", "gen/core.go: Package", "tv/corpus.go: WriteCorpus"]}
{"id": "C55", "title": "A successful build writes what the sources denote", "statement": "After `trunnel build` succeeds the three Go files hold the code, tests and fuzzers made from the ASTs of the sources, and the corpus directories hold exactly the test vectors besides what was there before.", "quantifier": "for all sources, output directories and file systems", "why_tests_cant": "All sources.", "anchors": ["cmd/trunnel/trunnel.go: build", "gen/core.go: Package"]}
{"id": "C56", "title": "The generated tests pass", "statement": "The parser that `trunnel build` writes accepts every input listed in the tests it writes, and every corpus file it writes for a struct without contexts.", "quantifier": "for all sources, random sources, selections and growth of slices", "why_tests_cant": "All declarations and random choices.", "anchors": ["cmd/trunnel/trunnel.go: build", "gen/tests.go: CorpusTests", "tv/generator.go: GenerateFiles"]}
{"id": "C57", "title": "Test vector generation reports no error", "statement": "For every list of files that Marshallers accepts, GenerateFiles returns a corpus and not an error.", "quantifier": "for every list of files, selector, behaviour of the random source and iteration order of maps", "why_tests_cant": "An error appears only for some combinations of declarations (arrays of structs that use a context, list overlaps, leftover lengths) and some draws of the random source.", "anchors": ["tv/generator.go: GenerateFiles, cross, generator.array, generator.union", "tv/constraints.go: Constraints.Merge", "inspect/inspect.go: Resolver.Intervals"]}
{"id": "C58", "title": "A build fails only for a reason in the declarations, and its outputs fit together", "statement": "If files can be written and generated code can be formatted, `trunnel build` of sources in the language succeeds exactly when the marshalling code can be generated and the test vectors are generated (or reported as not implemented); otherwise it returns that error. For declarations of the supported classes it does succeed; the tests and corpus files written are then accepted by the parser written, which accepts exactly the encodings of what the sources declare.", "quantifier": "for all sources, disks, output directories, random sources whose draws come back to zero, iteration orders and growth of slices", "why_tests_cant": "Composition of the source parser, both generators, the vector generator and the file system over all sources; success needs termination of the vector generator.", "anchors": ["cmd/trunnel/trunnel.go: build", "gen/core.go: Package", "gen/tests.go: CorpusTests", "tv/generator.go: GenerateFiles"]}
{"id": "C59", "title": "Test vectors reach every case of a union", "statement": "Every struct that has an encoding gets at least one test vector; and with the exhaustive selector, for every case of a union that the parser can be made to take, some vector makes it take that case.", "quantifier": "for every list of files, behaviour of the random source, iteration order of maps and growth of slices", "why_tests_cant": "Coverage depends on which tags and lengths are fixed by members generated earlier, for all declarations and draws.", "anchors": ["tv/generator.go: GenerateFiles, generator.union, generator.structure", "inspect/branches.go: NewBranches", "tv/selector.go: Exhaustive"]}
{"id": "C60", "title": "Parsing takes time linear in the input", "statement": "The number of steps that a generated parser takes is at most a price, computed from the text of the declarations, for every byte of the input and once more. A call that succeeds pays for the bytes it takes only.", "quantifier": "for every list of files, every struct, every receiver, context value and byte string", "why_tests_cant": "Slow inputs are rare among all inputs; the worst case is over all byte strings of all lengths and all declarations.", "anchors": ["gen/decl.go: generator.parse, parseMember, parseType, parseArray, parseUnionMember, parseConstructor"]}
{"id": "C61", "title": "Parsing takes memory linear in the input", "statement": "The number of cells of memory that a generated parser asks for is bounded in the same way.", "quantifier": "for every list of files, every struct, every receiver, context value and byte string", "why_tests_cant": "An input that asks for much memory is rare among all inputs.", "anchors": ["gen/decl.go: generator.parseArray, parseType, parseConstructor"]}
{"id": "C62", "title": "A rejected source is answered with reports that name places", "statement": "Parsing a source either returns a file or reports at least one error, never both and never a panic. The offset, line and column of every reported error name the same place in the text, counting lines and characters from one. What a report says is true of the text at that place: either it quotes a number there that is malformed or out of range, or the bytes there encode no character, or it is the only report and lists what could have come next.", "quantifier": "for all byte strings; for positions, all sequences of code points", "why_tests_cant": "All texts, in particular ones with letters of several bytes and newlines around the error.", "anchors": ["parse/internal/parser/gen-parser.go: parser.parse, parser.read, parser.addErrAt, parser.failAt", "parse/parse.go: String"]}
{"id": "C63", "title": "Error messages do not depend on map iteration", "statement": "The error message of a rejected source is the same in every run.", "quantifier": "for all byte strings and iteration orders", "why_tests_cant": "Go randomises the order in which the map of expected tokens is visited.", "anchors": ["parse/internal/parser/gen-parser.go: parser.parse, listJoin"]}
{"id": "C64", "title": "What follows an error does not matter", "statement": "If a source is reported not to match at some place, then any source that agrees with it up to ten bytes after that place is rejected with the same message.", "quantifier": "for all byte strings and all continuations", "why_tests_cant": "All continuations; a parser that backtracks could accept a source because of something far behind the reported error.", "anchors": ["parse/internal/parser/gen-parser.go: parser.failAt, parser.parse, g"]}
{"id": "C65", "title": "Reading a source takes time polynomial in its length", "statement": "The parser evaluates a number of expressions that is bounded by a polynomial in the length of the source.", "quantifier": "for all byte strings", "why_tests_cant": "The worst case is over all sources; the parser backtracks and does not memoize.", "anchors": ["parse/internal/parser/gen-parser.go: parser.parseExpr, g", "parse/trunnel.pigeon: StructMember, SMArray, SMStruct"]}
{"id": "C66", "title": "Parsing writes only to the receiver", "statement": "Of all that was in memory before the call, x.Parse changes nothing but x itself: not the input slice (nor its spare capacity), not the contexts, not what x pointed to. ParseX changes nothing at all.", "quantifier": "for every list of files, struct, memory, receiver (fresh or used), input slice, context values, and way in which append picks capacities", "why_tests_cant": "Sharing between the input, the receiver's old contents and the contexts can take any form; a write through a shared slice shows only if some test looks at the right place afterwards.", "anchors": ["gen/decl.go: generator.parse, parseType, parseArray, constrained, parseConstructor"]}
{"id": "C67", "title": "Parsed values do not share memory", "statement": "What a successful parse stores is in memory allocated by that call, so the caller may reuse the input buffer. A value returned by ParseX is a tree: no object is reachable in two ways. The rest that is returned is a piece of the input slice.", "quantifier": "for every list of files, struct, memory, receiver, input slice and context values", "why_tests_cant": "Sharing is invisible until somebody writes; there are unboundedly many shapes of memory and of values.", "anchors": ["gen/decl.go: generator.parseType, parseArray, constrained, parseConstructor"]}
{"id": "C68", "title": "Memory does not influence what is parsed", "statement": "The results of a call depend on the bytes, the contexts and the integers and strings in the receiver only, not on where things are in memory, on what they share, on capacities, or on the word size of the platform.", "quantifier": "for every list of files, struct, memory, receiver, input slice, context values and platform", "why_tests_cant": "All arrangements of memory, all capacities chosen by append, and platforms other than the one the tests run on.", "anchors": ["gen/decl.go: generator.parse, parseType, parseArray, constrained, parseConstructor"]}
{"id": "C69", "title": "Data that arrives in pieces", "statement": "Let a struct be self-delimiting (its length does not depend on what follows it). If Parse accepts some data, then on a beginning of the data it returns the same value, or an error that says that data is missing (\"data too short\", \"could not parse nul-term string\"). All other errors are final: they are reported again for the longer data. No complete message is a proper beginning of another complete message.", "quantifier": "for every list of files, self-delimiting struct, receiver, context values, data and continuation", "why_tests_cant": "There are unboundedly many ways to cut a message and to continue it; tests feed whole messages.", "anchors": ["gen/decl.go: generator.parse, parseType, parseIntType, parseArray, constrained, lengthCheck"]}
{"id": "C70", "title": "Further declarations do not change parsers", "statement": "If everything that some files declare is declared in other files too, in whatever order and distribution, possibly with further declarations, then for every struct of the former the parsers generated from both do the same: same value, same rest, same error, same panic, or both do not end.", "quantifier": "for every two lists of files for which packages are generated, every struct, receiver, data and context values", "why_tests_cant": "All pairs of inputs to the generator; name lookup depends on the whole of the declarations and on the order of files.", "anchors": ["gen/decl.go: Marshallers, generator.files, generator.file", "inspect/inspect.go: Resolver.AddFile, Resolver.Struct, Resolver.Constant, Resolver.Context"]}
{"id": "C71", "title": "Only the values of integers matter", "statement": "If two sets of declarations differ only in how integers and lists of integers are written (a constant or its value, another order of ranges, overlapping or split ranges) and in the names of unions, then the generated parsers do the same on all inputs.", "quantifier": "for every two lists of files for which packages are generated and which agree up to the spelling of integers, every struct, receiver, data and context values", "why_tests_cant": "All pairs of declarations with the same meaning, and all inputs to both parsers.", "anchors": ["gen/decl.go: generator.integer, generator.conditional, generator.parseUnionMember", "inspect/inspect.go: Resolver.Integer"]}
{"id": "C72", "title": "A source may be cut between declarations", "statement": "Two accepted sources with a line break between them are an accepted source, which declares what both declare; and if a source is cut after a part that is accepted by itself, the rest is accepted by itself unless it begins with a semicolon. If files give a package, then they still do after one of them has been cut in two, and after two that declare different names have been joined, and the parsers do the same in every call.", "quantifier": "for every two source texts, every list of files around them, every struct, receiver, data and context values", "why_tests_cant": "All pairs of texts: comments that run to the end, inline structs, missing semicolons; the parser backtracks over the whole rest of the text.", "anchors": ["parse/trunnel.pigeon: File, Declaration, _", "parse/parse.go: String", "inspect/inspect.go: Resolver.AddFile"]}
{"id": "C73", "title": "Names do not matter", "statement": "If everything that has a name in some declarations is given another name consistently - structs, fields, contexts and their fields, constants, unions - and both versions give a package, then the parsers do the same: for the same data they return the same values in fields of other names and leave the same rest, or report the same error.", "quantifier": "for every renaming (fields differently in every struct) and conversion to Go names, every list of files for which packages are generated before and after, every struct, receiver, data and context values", "why_tests_cant": "All renamings of all declarations; a clash of a field with a variable of the generated code shows only for particular names.", "anchors": ["gen/decl.go: Marshallers, generator.files, generator.file, generator.structure", "gen/decl.go: generator.ref, contextSignature, contextArgs", "inspect/inspect.go: Resolver.Struct, Resolver.Constant, Resolver.Context, Resolver.IntType"]}
{"id": "C74", "title": "Building again is safe", "statement": "What a build does depends on the source files alone, not on what earlier builds have left. Building twice gives the same files as building once; after a build that was disturbed at any point, building again gives what an undisturbed build would have given, provided that no source file is itself an output. No build removes a file. With other random numbers the generated code is the same and files of the corpus are kept, unless the hash that names them has a collision.", "quantifier": "for every contents of the disk, list of source names, output directory, pattern of failing file operations (with whatever is left in the file), random numbers, selections and orders of traversal", "why_tests_cant": "All states of the disk and all points at which a build may be disturbed, followed by another build.", "anchors": ["cmd/trunnel/trunnel.go: build", "gen/core.go: Package", "tv/corpus.go: WriteCorpus, writecorpus"]}
{"id": "C75", "title": "Random elements are equally likely", "statement": "When the random source is uniform, every element of an interval set is drawn with the same probability: for any two elements the sequences of draws that give the one and those that give the other correspond one to one, draw by draw. In each round at least a quarter of the possible draws end the search.", "quantifier": "for every set that leaves out some 64-bit integer, any two of its elements, every random source and number of rounds", "why_tests_cant": "Uniformity is a statement about all 2^126 pairs of draws; statistics over samples do not show small bias.", "anchors": ["internal/intervals/intervals.go: Set.RandomWithGenerator, randuint64n, randuint64"]}
{"id": "C76", "title": "Declarations can be loosened", "statement": "If lists of allowed integers are made larger, cases are added to unions for tags that were refused, and other declarations are added, then everything that the old parsers accept is accepted by the new ones, to a value with the same contents in the old fields and with the same rest. Of what the old parsers did not accept, only calls that failed with 'integer constraint violated' or 'disallowed case' may end differently; and what the new parsers accept was either accepted before, to the same fields, or refused with one of these two errors. If only lists are made larger, or only cases are added, then only the one or the other error goes away.", "quantifier": "for every two lists of files for which packages are generated and of which one loosens the other, every struct, receiver, data and context values", "why_tests_cant": "All pairs of declarations and all inputs: whether old messages stay valid when a format is revised.", "anchors": ["gen/decl.go: generator.parseIntType, generator.parseUnionMember, generator.conditional", "ast/ast.go: UnionMember, UnionCase, IntType, Fail"]}
{"id": "C77", "title": "Older parsers read newer messages", "statement": "If a newer version of declarations only adds members in place of ignored input, adds cases for tags whose input was ignored, allows fewer integers or tags, and adds members at the end of structs that are not used in other structs, then every message that the newer parser accepts is accepted by the older one: its fields have the same contents, and it leaves the input for the members at the end together with the rest. For structs without members added at the end the rest is the same.", "quantifier": "for every two lists of files for which packages are generated and which are so related, every struct, receiver, data and context values", "why_tests_cant": "All pairs of declarations and all inputs: whether deployed parsers can read messages of a revised format.", "anchors": ["gen/decl.go: generator.parse, generator.parseUnionMember, generator.parseIntType", "ast/ast.go: UnionMember, UnionCase, Ignore"]}
{"id": "C78", "title": "Values can be written back", "statement": "The bytes that a generated parser consumed can be computed from its result: integers in big-endian order, strings followed by a zero byte, arrays element by element, unions by the case that their tag selects. Conversely, a value whose integers are in range and allowed, whose counts are those of its arrays, whose union lengths are those of the bytes of the unions and whose pointers are the positions they stand for is parsed from the bytes so computed, to exactly this value and the same rest. For structs that say where they end, whatever else may follow.", "quantifier": "for every list of files for which a package is generated, every struct in which no input is ignored, every receiver, data, context values and value", "why_tests_cant": "All declarations and all values: a writer for the format would be tested on samples of both.", "anchors": ["gen/decl.go: generator.parse, generator.parseType, generator.parseIntType, generator.parseArray, generator.parseUnionMember", "gen/decl.go: Marshallers"]}
{"id": "C79", "title": "Lengths of messages", "statement": "From the text of a declaration one can compute a least and a greatest length of its messages: integers take their width, strings at least a byte, arrays so many times what an element takes, counted arrays and unions with a length what the width and the constraint of the field that gives the count allow, unions what one of their cases takes. A parser never takes fewer or more bytes than that: shorter data is never accepted, from longer data the excess is left over, a struct of a fixed size leaves exactly the data behind that size, and a struct whose every case is refused accepts nothing. For declarations without unions, arrays up to the end and constraints that exclude zero, so many zero bytes as the least length are a message, whatever follows.", "quantifier": "for every list of files for which a package is generated, every struct, receiver, data, context values, and every depth to which nested structs are looked into", "why_tests_cant": "All declarations and all inputs: tests check lengths of the samples they parse.", "anchors": ["gen/decl.go: generator.parse, generator.parseType, generator.parseIntType, generator.parseArray, generator.parseUnionMember, generator.lengthCheck, generator.constrained"]}
{"id": "C80", "title": "Parsing in several goroutines", "statement": "Any number of goroutines may call generated methods at the same time, sharing inputs and contexts, as long as no two use the same receiver. However their steps are interleaved there is no data race: no two goroutines ever are about to access the same object, one of them to write it. Each one returns what its call would return by itself, and what it returned stays as it is while others go on. All of them end. What they have filled in is separate from each other, and nothing else that existed is changed.", "quantifier": "for every list of files for which a package is generated, every number of goroutines and calls, every memory, every interleaving, every moment of it", "why_tests_cant": "There are exponentially many interleavings, of which a test sees the one that the scheduler happens to choose; a race detector reports on that one.", "anchors": ["gen/decl.go: Marshallers, generator.parse, generator.parseType, generator.parseIntType, generator.parseArray, generator.parseUnionMember"]}
{"id": "C81", "title": "Errors say what is wrong", "statement": "A generated parser returns one of five errors, and the one it returns tells what is wrong at the first place where the data does not fit the declaration: everything before it fits, and there bytes are missing for an integer or an extent, or an integer is none of those allowed, or a string has no end, or bytes are left over, or the case is refused. Conversely each such place makes the parser return this error. It panics exactly if it gets to a length that no slice can have. Data either starts with a message or has one such error or one such length ahead, never two of these.", "quantifier": "for every list of files for which a package is generated, every struct, receiver, data and context values", "why_tests_cant": "All declarations and all wrong inputs; tests of errors check that there is one, on chosen inputs.", "anchors": ["gen/decl.go: generator.parse, generator.parseType, generator.parseIntType, generator.parseArray, generator.parseUnionMember, generator.lengthCheck, generator.constrained, generator.conditional, generator.assertEnd"]}
{"id": "C82", "title": "Messages one after the other", "statement": "Data that is made of messages of a type that says where it ends can be read by calling Parse on what the last call left until nothing is left: this returns exactly these messages in order. If such a loop gets to the end without error, the data is made of the messages it returned. There is only one way to cut data into messages. If the loop stops with an error, then what is left after the messages returned has the fault that the error tells, and vice versa. The loop always ends if messages are not empty.", "quantifier": "for every list of files for which a package is generated, every struct that says where it ends, every number of messages, data and context values", "why_tests_cant": "All sequences of messages of any length and all ways to cut them; tests parse single messages.", "anchors": ["gen/decl.go: generator.parse, generator.parseType, generator.parseUnionMember, generator.lengthCheck"]}
{"id": "C83", "title": "Emitted tests and fuzz functions", "statement": "For every struct without contexts a test over its vectors and a fuzz function are written, which call the parser of that struct. The fuzz function returns 1 exactly for data that starts with a message, 0 exactly for data with a fault, and panics exactly where a length is too large for any slice. The test passes exactly if each of its vectors starts with a message, and otherwise reports the fault of the first one that does not. Recorded constraints of a vector only ever name contexts of its struct. For the declarations whose vectors are always accepted, every test passes.", "quantifier": "for every list of files for which a package is generated, every outcome of random choices, every set of vectors, every data given to a fuzz function", "why_tests_cant": "Emitted tests run on the vectors of one generation; that the verdict of the harness is right for all data needs the meaning of the format.", "anchors": ["gen/tests.go: CorpusTests, constrained", "gen/fuzz.go: Fuzzers", "tv/generator.go: GenerateFiles", "tv/constraints.go: Constraints.CloneGlobal"]}
{"id": "C84", "title": "Members can be moved into a struct", "statement": "If in a struct, or in the cases of its unions, stretches of members without positions are replaced by single members of structs that consist of them, then the new parser accepts the same data as the old one, leaves the same rest, holds the same contents in the new places, and returns the same error, panics or never ends on the same data as the old one. Moving a position field changes its value.", "quantifier": "for every list of files for which a package with both arrangements is generated, every number and depth of moved stretches, data and context values", "why_tests_cant": "All ways to rearrange all declarations and all data; tests compare two parsers on chosen inputs at best.", "anchors": ["gen/decl.go: generator.parse, generator.parseType, generator.parseUnionMember, generator.structDecl"]}
{"id": "C85", "title": "Values can be used again", "statement": "However a call of a generated parser ends, its receiver afterwards holds a value of its type all the way down: integers that fit their width, arrays of their declared length, pointers to values of the struct they point to or nil. What the parser returns is a slice of bytes or nil, and an error or nil. So after any number of calls, failed ones included, every call that can be made on a new value can be made on the used one, and it ends in the same way: with the same error, or with the same rest and the same values in all fields that are parsed.", "quantifier": "for every list of files for which a package is generated, every struct, every sequence of calls with any data and context values, from any value of the type", "why_tests_cant": "All declarations, all points at which a call can fail half way, and all sequences of calls; tests use a new value for each call.", "anchors": ["gen/decl.go: generator.structDecl, generator.tipe, generator.parse, generator.parseType, generator.parseIntType, generator.parseArray, generator.parseUnionMember"]}
{"id": "C86", "title": "The text that is written is Go", "statement": "If the names that the declarations lead to are Go names and clash with nothing, the text of the generated source is a Go source file of the given package. It declares one struct type for each context and struct, one Parse method and one ParseX function for each struct, and nothing else; parameters have the types of their contexts. The text has one reading only. Run as Go, it behaves as all other properties say: in particular it accepts exactly the encodings of a struct. It compiles exactly if integers fit what they are compared with. With a context named like a keyword the text is not Go.", "quantifier": "for every list of files for which a package is generated and whose names are Go names, every package name, all calls", "why_tests_cant": "The text is put together from pieces that depend on the declarations; a missing parenthesis, line end or space shows only for some of them.", "anchors": ["gen/decl.go: Marshallers, generator.file, generator.context, generator.structure, generator.structDecl, generator.parse, generator.parseConstructor, generator.parseType, generator.parseIntType, generator.parseArray, generator.parseUnionMember, generator.conditional, generator.constrained, generator.lengthCheck, contextSignature, contextArgs", "gen/printer.go: printer.header, printer.markgenerated, printer.pkg, printer.imported"]}
{"id": "C87", "title": "The tests and fuzz functions that are written are Go", "statement": "The text of the generated test file is a Go source file of the package that is always built. It has one test for each struct whose vectors need no context values, in order, and nothing else; the test goes through exactly the bytes of the vectors of the struct, however many, nil slices included, and calls the parsing function of that struct. The text of the fuzz file is built with the tag gofuzz only and has one fuzz function for each of the same structs. Each text has one reading only. Run with the generated parser, as text, the functions give the verdicts of the property on emitted tests; the tests pass for the declarations for which vectors are accepted.", "quantifier": "for every corpus of bytes and names, every package name; for every list of files for which a package is generated, and every outcome of random choices", "why_tests_cant": "The text is put together from data of any length; a wrong digit or a missing comma shows only for some vectors.", "anchors": ["gen/tests.go: CorpusTests, constrained", "gen/fuzz.go: Fuzzers", "gen/printer.go: printer.header, printer.markgenerated, printer.pkg"]}
{"id": "C88", "title": "From sources to Go files", "statement": "After trunnel build -p pkg returns without error, gen-marshallers.go on the disk is a Go file of package pkg whose functions accept exactly the encodings of what the bytes of the source files declare; gen-marshallers_test.go and gen-fuzz.go, if vectors are implemented for the sources, are Go files of the package with the tests and fuzz functions that the vectors ask for, and the tests pass for the declarations for which vectors are accepted. Sources for which vectors are made without error are built. Without -p every build returns an error and changes no file.", "quantifier": "for every content of the disk, all file names, directories, package names, failures of file operations, iteration orders and random numbers; for every list of sources that declares what a package is generated for", "why_tests_cant": "The statement goes through the source parser, the resolver, three generators and the file system for all inputs at once; a test runs the tool on one source.", "anchors": ["cmd/trunnel/trunnel.go: build", "gen/core.go: Package, Config", "gen/printer.go: printer.imported", "gen/decl.go: Marshallers", "gen/tests.go: CorpusTests", "gen/fuzz.go: Fuzzers"]}
{"id": "C89", "title": "How many test vectors are made", "statement": "A suite has at most as many vectors as the declarations leave choices, where the cases of a union add up and members and the elements of an array multiply. With a selector that keeps at most b vectors no suite has more than b, or one for a struct without members. With the default selector the number is exponential: a struct with an array of N structs with two vectors each has exactly 2^N vectors, so no number bounds the vectors of all inputs with two structs and three members.", "quantifier": "for every list of files, every selector that adds nothing, all iteration orders, slice growth and random numbers; for every array size N", "why_tests_cant": "A count for one input says nothing about others, and the growth that exhausts memory is never reached in a test.", "anchors": ["tv/generator.go: GenerateFiles, generator.files, generator.structure, generator.members, generator.member, generator.field, generator.array, generator.union, generator.lenconstrain, cross", "tv/selector.go: Exhaustive, RandomSampleSelector"]}
{"id": "C90", "title": "The order of cases does not matter", "statement": "If the cases of unions are written in another order, and no two cases of a union are for the same integer, then the generated parsers do the same: the same data is accepted, to fields of the same names and contents and with the same rest, or refused with the same error, panics or never ends. If two cases are for the same integer then the order matters.", "quantifier": "for every two lists of files for which packages are generated and which agree up to the order of cases (in unions at any depth) and the spelling of integers, every struct, receiver, data and context values", "why_tests_cant": "A test compares two orders of one union on a few messages; whether a default written first hides other cases shows for some tags only.", "anchors": ["gen/decl.go: generator.parseUnionMember, generator.structDecl", "inspect/branches.go: NewBranches, Branches.Lookup"]}
{"id": "C91", "title": "A field nobody refers to is independent of the rest", "statement": "In accepted data every field has a stretch of bytes of its own. If no later member has the field as a length or tag, its bytes can be replaced by any other encoding of a value of its type that is as long: the data is accepted still, with the same rest, and only that field changes. For integers: the stretch is the big-endian form of the field, that of any other allowed integer will do, and one that is not allowed is refused as a constraint violation. If the field is referred to this does not hold. The replacement may have any length, so that a string can be replaced by any other string, if the members before the field do not look at the end of the data and those after it hold no positions.", "quantifier": "for every package, struct, receiver, context values and accepted data, every field of the struct that no later member refers to, and every replacement of the same length, or of any length under the conditions given", "why_tests_cant": "A test patches one field of one message; that no other field is affected, whatever surrounds it (arrays, unions, nested structs), is a claim about all declarations.", "anchors": ["gen/decl.go: generator.parse, generator.parseMember, generator.parseType, generator.parseIntType"]}
{"id": "C92", "title": "The text of a set of integers says what is in it", "statement": "Printing a set of integers gives numbers and ranges with commas between them. Read back, the text lists exactly the elements of the set; there is one reading only; sets that print alike are equal; the empty set and only that prints as the empty text. Sets with the same elements may print differently, because touching intervals are kept apart.", "quantifier": "for every set that the package makes, with elements up to 2^64-1", "why_tests_cant": "A test compares the texts of a few sets; that a text never stands for two sets is a claim about all pairs.", "anchors": ["internal/intervals/intervals.go: Interval.String, Set.String"]}
{"id": "C93", "title": "Corpus files are named by the digest of their contents", "statement": "The name of a corpus file is the SHA-256 digest of its contents in 64 lower-case hexadecimal digits, from which the digest can be read back. Two vectors have the same name exactly if they have the same digest. If no two vectors of the corpus collide, then after a successful write each vector is in the file of its name below its type, and no other file is new or changed.", "quantifier": "for every corpus, directory, state of the file system and vector of any length", "why_tests_cant": "A test computes one digest; that names never hold anything but hexadecimal digits, and that no two vectors share a file unless they collide, is about all contents.", "anchors": ["tv/corpus.go: sha256namer, writecorpus, WriteCorpus"]}
{"id": "C94", "title": "Looking up vectors finds those of the struct", "statement": "In a generated corpus, looking up the name of a defined struct gives the vectors of its only suite, and looking up anything else gives nil. In a corpus put together by hand the first suite of a name counts; vectors added under a name that is there already are not found.", "quantifier": "for every list of files for which generation succeeds, every order of map iteration, selector and random source, and every name", "why_tests_cant": "A test looks up one name in a corpus with one suite; that names of suites never clash depends on how files with extern and defined structs of the same name are combined.", "anchors": ["tv/corpus.go: Corpus.Vectors, Corpus.AddVectors, Corpus.AddSuite", "tv/generator.go: generator.files"]}
{"id": "C95", "title": "Only the contexts that are referred to matter", "statement": "Call the parser of a struct twice on the same data, with contexts that agree on every field used as a tag or a length in the struct or in a struct inside of it. Both calls return the same, leave the same in the receiver, and fail, panic or go on alike. In particular, a struct that uses no field of a context parses alike with any contexts.", "quantifier": "for every accepted set of files, defined struct, receiver, data and contexts", "why_tests_cant": "Tests pass one or two contexts; that a spare field never has an influence, at any depth of nesting, is about all of them.", "anchors": ["gen/decl.go: generator.parse, generator.parseType, generator.ref", "inspect/inspect.go: Resolver.Context"]}
{"id": "C96", "title": "A fixed array is that many members in a row", "statement": "Take two structs that differ in that one has an array with a fixed number of elements where the other has that many members of the element type. Their parsers accept the same data, leave the same rest, report the same errors, and find the same values: the elements of the array are the values of the single members, and all other fields agree.", "quantifier": "for every accepted set of files with two such structs, every element type, number of elements, contexts and data", "why_tests_cant": "The loop that is generated for an array and the straight code for single members are different code; tests run each on a few inputs.", "anchors": ["gen/decl.go: generator.parseArray, generator.parseType, generator.parseMember"]}
{"id": "C97", "title": "The code of a declaration depends only on what it mentions", "statement": "The generated text is a heading and one piece for each context and struct, in the order of declaration. If a declaration occurs in two packages, the constants that it mentions have the same values in both, and the structs that it mentions take the same contexts in both, then its piece is the same in both, character by character. So replacing one struct by another of the same name and contexts changes the text of that struct and nothing before or after it.", "quantifier": "for every two lists of files for which generation succeeds, every order of map iteration, and every declaration that is in both", "why_tests_cant": "Tests compare the output for whole files; that an edit never shows in code elsewhere is about all pairs of packages.", "anchors": ["gen/decl.go: Marshallers, generator.files, generator.file, generator.structure", "gen/printer.go: printer.header"]}
{"id": "C98", "title": "An integer is its bytes, the most significant one first, and an array is its parts", "statement": "Take two structs that differ in that one has an integer field without a constraint where the other has an array of as many bytes. Their parsers accept the same data, leave the same rest and report the same errors. The bytes found by the one are the big-endian form of the integer found by the other, and all other fields agree. Likewise if one has an array of a fixed number of elements where the other has two arrays that make up that number: the elements of the one are those of the two in a row.", "quantifier": "for every accepted set of files with two such structs, every width, surrounding members, contexts and data", "why_tests_cant": "The integer is read by a call into encoding/binary and the bytes by a loop with its own length checks; tests compare neither on all lengths and contents.", "anchors": ["gen/decl.go: generator.parseIntType, generator.parseArray, generator.parseType", "gen/decl.go: generator.lengthCheck"]}
{"id": "C99", "title": "A union is the members of the case that its tag selects", "statement": "Take a struct with a union that has no length, and a second struct that has, in place of the union, the members of the case for the tag value v (nothing if no case is for v). The data that the first accepts with v in the tag are exactly those that the second accepts with v in it; both leave the same rest and agree in the common fields, and the fields of the other cases are left as in a new value. If the tag can only be v, because an earlier integer is constrained to it or a context provides it, then the two parsers also report the same errors and agree on whether they return at all.", "quantifier": "for every accepted set of files with two such structs, every tag value, cases, surrounding members, contexts and data", "why_tests_cant": "Tests try a few tags; that the switch adds nothing to the case it selects, and touches nothing of the others, is about all unions, tags and data.", "anchors": ["gen/decl.go: generator.parseUnionMember", "gen/decl.go: generator.parseMember"]}
{"id": "C100", "title": "A union with a length is an array of bytes that its case reads", "statement": "Take a struct with a union that has a length, and a second struct that has an array of bytes of the same length in its place. What the first parser accepts, the second accepts too, with the same rest and the same values in all other fields; so a reader that does not know the cases can skip the union. Take also a third struct with the members of the case for the tag value v. The first parser accepts data with v in the tag exactly if the second does and the third accepts the bytes of the array without a rest; the fields of the case are those that the third finds. If the third fails on the bytes, or leaves a rest, the first reports that error, or trailing data.", "quantifier": "for every accepted set of files with such structs, every kind of length, tag value, cases, surrounding members, contexts and data of at most 2^44 bytes; the third struct has no @ptr fields", "why_tests_cant": "The union is read by cutting the slice, running the case and restoring it, with three checks; tests try a few lengths and cases.", "anchors": ["gen/decl.go: generator.parseUnionMember, generator.constrained", "gen/decl.go: generator.parseArray"]}
{"id": "C101", "title": "A constraint is a filter, and so is the end of the data", "statement": "Take two structs that differ in that an integer field has a constraint in one and none in the other. The parser of the first accepts exactly the data that the other accepts with an integer that meets the constraint, and finds the same values and the same rest. What the other accepts with another integer the first rejects, naming the constraint. What the other rejects the first rejects too, with the same error or naming the constraint; the same holds for panics and calls that do not return. Likewise for a struct with eos at its end: it accepts exactly what the struct without eos accepts without a rest, rejects what that leaves a rest of, and does the same otherwise.", "quantifier": "for every accepted set of files with two such structs, every width, constraint, surrounding members, contexts and data", "why_tests_cant": "Tests try a few values on either side of a bound; that a constraint has no other effect, on any field, rest or error, is about all data.", "anchors": ["gen/decl.go: generator.parseIntType, generator.conditional", "gen/decl.go: generator.assertEnd"]}
{"id": "C102", "title": "A context is data that came earlier", "statement": "Take a struct that needs a context, a second struct for what comes before it, and a third that has the members of the second and then those of the first, referring to its own fields where the first refers to the context. What the second parser does not accept, the third rejects with the same error. If the second parser accepts the data and leaves a rest, and the context holds the values that it found, then the third parser does with the data what the first does with the rest in this context: it accepts with the same fields and the same rest, or reports the same error, or panics or runs on alike.", "quantifier": "for every accepted set of files with such structs, every use of the context in lengths, tags, cases and nested structs, further contexts, and data; the first struct has no @ptr fields", "why_tests_cant": "Splitting a message into a header and a body with a context is the use of contexts; that it never changes what is accepted is about all structs, contexts and data.", "anchors": ["gen/decl.go: generator.ref", "gen/decl.go: generator.parse", "gen/decl.go: generator.parseUnionMember, generator.parseArray"]}
{"id": "C103", "title": "Different ways to write the same", "statement": "Take two structs whose members are the same but for spelling: char instead of u8, an array that leaves 0 bytes instead of one without a length, an empty default case instead of none, another name of a union, other texts of the same counts and of the same sets in labels, constraints that let the same integers of the size through (so none instead of one that excludes nothing); also inside of union cases. New values of both have the same fields, and with every receiver the two parsers accept the same data with the same values and rest, report the same errors, and agree on panics and on whether they return.", "quantifier": "for every accepted set of files with two such structs, every combination of these differences at every depth of unions, receiver, contexts and data", "why_tests_cant": "The generator emits different code for these spellings (a switch with or without default, a plain loop or a cut slice with checks); that it does the same is about all structs and data.", "anchors": ["gen/decl.go: generator.parseArray, generator.parseUnionMember, generator.constrained", "gen/decl.go: generator.parseType, generator.conditional"]}
{"id": "C104", "title": "Of a nested struct only what its parser does matters", "statement": "Take two sets of files that differ in the declarations of some structs only, and suppose that the parsers of each of these structs do the same in both generated packages: they accept the same data with the same values and rest, report the same errors and panic alike. Then the parsers of all other structs do the same in both packages, for every receiver, and they agree on whether they return. So structs can be rewritten without looking at those that use it.", "quantifier": "for every two accepted sets of files that differ in any number of structs, which may be used anywhere, in arrays, in unions and recursively, every other struct, receiver, contexts and data", "why_tests_cant": "Structs use each other through calls of generated methods; that nothing but the result of the call matters is about all declarations, depths of nesting and data.", "anchors": ["gen/decl.go: generator.parseType", "gen/decl.go: generator.parse, generator.parseConstructor"]}
{"id": "C105", "title": "Files that write the same structs in other ways", "statement": "Take two sets of files with the same constants and contexts, and with structs of the same names whose members are the same but for spelling (char instead of u8, an array that leaves 0 bytes instead of one without a length, an empty default case instead of none, other names of unions, other texts of the same counts and sets, constraints that exclude nothing). Then both generated packages do the same: for every struct, receiver, contexts and data the two parsers return the same values and rest, report the same errors, and agree on panics and on whether they return.", "quantifier": "for every two accepted sets of files so related, with any number of differences in any structs, nested and recursive to any depth, every receiver, contexts and data", "why_tests_cant": "Each difference changes the generated code of one struct, and parsers call each other recursively; that no combination of them shows in any package is about all files and data.", "anchors": ["gen/decl.go: generator.parseType, generator.parseArray, generator.parseUnionMember", "gen/decl.go: generator.parse, generator.parseConstructor"]}
{"id": "C106", "title": "Structs of a fixed size", "statement": "Take a struct made of integers and chars without constraints that exclude anything, positions, fixed arrays of these and other such structs. The bytes its integers take add up to a size. Its parser accepts all data of at least this size, whatever the bytes are, takes exactly this many bytes, and answers all shorter data with 'data too short'.", "quantifier": "for every accepted set of files and such a struct in it, with any number of members, sizes of arrays and depths of nesting, every receiver, contexts and data", "why_tests_cant": "Whether some bytes of some struct are refused or make the parser take more or fewer bytes is about all structs and all data; tests try some.", "anchors": ["gen/decl.go: generator.parseType, generator.parseArray", "gen/decl.go: generator.parse"]}
{"id": "C107", "title": "Arrays whose count is known", "statement": "Take two structs that differ in one array only: one has the count in an earlier integer or in a field of a context, the other has the number n in its place, and n elements can be allocated. The data that the first accepts with n in the count are those that the second accepts with n in it, with the same rest and the same values of all fields, the elements included. If the count can be nothing but n, because a constraint allows only n or the context has n in it, then both do the same on all data: they accept and return the same, report the same errors, and agree on panics and on whether they return.", "quantifier": "for every accepted set of files with two such structs, every type of elements, number n, members before and after, receivers that agree but for the array, contexts and data", "why_tests_cant": "The two arrays have different types and are parsed by different code, one that allocates and one that does not; that they agree is about all counts, element types and data.", "anchors": ["gen/decl.go: generator.parseType, generator.parseArray", "gen/decl.go: generator.ref"]}
{"id": "C108", "title": "What is ignored can be kept", "statement": "Replace an ignore in a case of a union, at any depth, by an array of bytes without a length. The parser of the new struct accepts the same data as before, returns the same rest, reports the same errors, and agrees on panics and on whether it returns. All other fields have the same values. The new array is as it was or has bytes of the data that follow each other.", "quantifier": "for every accepted set of files with two such structs, every union with or without a length and nested to any depth, receivers that agree but for the array, contexts and data", "why_tests_cant": "Ignoring is one assignment and the array is a loop that allocates; that nothing else can tell them apart is about all structs around them and all data.", "anchors": ["gen/decl.go: generator.parseMember, generator.parseArray, generator.parseUnionMember", "gen/decl.go: generator.constrained"]}
{"id": "C109", "title": "Integers in unions are their bytes", "statement": "Replace an integer of 8k bits without a constraint by an array of k bytes, also in a case of a union and at any depth. The parser of the new struct accepts the same data as before, returns the same rest, reports the same errors, and agrees on panics and on whether it returns. All other fields have the same values. The bytes are those of the integer with the most significant first, or both fields are as they were.", "quantifier": "for every accepted set of files with two such structs, every size of integer, every union with or without a length and nested to any depth, receivers that agree but for these fields, contexts and data", "why_tests_cant": "The integer is read by one call and the array by a loop, behind switches and length limits of any nesting; that nothing else can tell them apart is about all structs around them and all data.", "anchors": ["gen/decl.go: generator.parseMember, generator.parseType, generator.parseIntType, generator.parseUnionMember", "gen/decl.go: generator.constrained"]}
{"id": "C110", "title": "Constraints in unions are filters", "statement": "Take two structs that differ in that an integer has a constraint in one and none in the other, where the integer may be in a case of a union and at any depth. What the first parser accepts, the second accepts with the same values and rest, and the integer meets the constraint or was not read. What the second accepts, the first accepts in the same way, or it fails for the constraint and the integer does not meet it. Apart from failing for the constraint the first reports the errors of the second, and panics or goes on as the second does. If the receiver meets the constraint beforehand, the first accepts exactly what the second accepts with an integer that meets it.", "quantifier": "for every accepted set of files with two such structs, every constraint, every union with or without a length and nested to any depth, all receivers, contexts and data", "why_tests_cant": "The check of the constraint sits behind switches and length limits of any nesting, and whether it is reached depends on the data; that nothing else changes is about all structs around it and all data.", "anchors": ["gen/decl.go: generator.parseMember, generator.parseIntType, generator.conditional, generator.parseUnionMember", "gen/decl.go: generator.constrained"]}
{"id": "C111", "title": "Counts in contexts are numbers", "statement": "Take two structs that differ in one array, which may be in a case of a union and at any depth: one has a field of a context as its count, the other a number v. If the context that is handed over has v in that field, and v elements can be allocated, then both parsers do the same on all data: they accept and return the same, report the same errors, and agree on panics and on whether they return. All other fields have the same values. The array has the same v elements in both, or it is as it was in both.", "quantifier": "for every accepted set of files with two such structs, every type of elements, number v, every union with or without a length and nested to any depth, receivers that agree but for the array, contexts with v in the field and data", "why_tests_cant": "The two arrays have different types and are parsed by different code, one that looks into the context and allocates and one that does neither; that they agree is about all nestings, counts, contexts and data.", "anchors": ["gen/decl.go: generator.parseType, generator.parseArray, generator.parseUnionMember", "gen/decl.go: generator.ref"]}
{"id": "C112", "title": "Cases that the tag cannot select", "statement": "Take a struct with a union whose tag is an earlier integer or a field of a context, and a second struct without one of the cases: a case whose list has none of the values that the tag can have (those that fit its width and meet its constraint, or the one in the context), or the default if the lists of the others have them all. Both parsers do the same on all data: they accept and return the same, report the same errors, and agree on panics and on whether they return. The fields of the case are left as they were, all others have the same values.", "quantifier": "for every accepted set of files with two such structs, every union with or without a length, every contents of the case, receivers that agree but for the fields of the case, contexts and data", "why_tests_cant": "Tests can try tags one by one but not show that a case is never reached whatever comes before the union and whatever the constraint allows.", "anchors": ["gen/decl.go: generator.parseUnionMember, generator.parseIntType, generator.conditional", "gen/decl.go: generator.constrained"]}
{"id": "C113", "title": "Of the cases of a union only what they select matters", "statement": "Take two structs that differ in the cases of one union, which may be in a case of another and at any depth, such that for every value of the tag the same members are read (none if there is no case for it). Both parsers do the same on all data: they accept and return the same with the same values of all fields, report the same errors, and agree on panics and on whether they return. So the order of cases may be changed, a list without fields of its own may be split or joined with another, and cases that read what the default reads may be left out.", "quantifier": "for every accepted set of files with two such structs, all cases with at most one default in each, every tag and length and every nesting, receivers that agree, contexts and data", "why_tests_cant": "The generated switches differ in their cases and the order of them; that this cannot be seen is about all values of the tag, all structs around the union and all data.", "anchors": ["gen/decl.go: generator.parseUnionMember, generator.conditional", "gen/decl.go: generator.constrained"]}
