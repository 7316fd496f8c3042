{
 "claims": [
  {
   "property": "C01",
   "status": "proved",
   "theorems": [
    "C01_newset_exact",
    "C01_simplify_exact",
    "C01_sort_irrelevant"
   ],
   "note": "NewSet and Simplify cover exactly the given integers, in increasing disjoint order."
  },
  {
   "property": "C02",
   "status": "proved",
   "theorems": [
    "C02_overlaps_exact"
   ],
   "note": "Overlaps is true exactly when two entries share an integer."
  },
  {
   "property": "C03",
   "status": "partial",
   "theorems": [
    "C03_subtract_exact_partial",
    "C03_subtract_refuted",
    "C03_subtract_empty_empties",
    "C03_inttype_exact"
   ],
   "note": "Exact for a non-empty subtrahend. False for the empty set, which empties the receiver (C03_subtract_refuted)."
  },
  {
   "property": "C04",
   "status": "proved",
   "theorems": [
    "C04_random_element",
    "C04_random_reaches_all"
   ],
   "note": "For every set and stream of draws the result is an element; every element is returned for some stream. The full 64-bit set never returns, see C05."
  },
  {
   "property": "C05",
   "status": "partial",
   "theorems": [
    "C05_random_terminates_partial",
    "C05_full_set_hangs",
    "C05_random_terminates_refuted"
   ],
   "note": "Terminates on a sufficiently varied stream unless the set has 2^64 elements, in which case it never returns (C05_random_terminates_refuted)."
  },
  {
   "property": "C06",
   "status": "proved",
   "theorems": [
    "C06_addfile_order_independent"
   ],
   "note": "Outcome and answers are the same for all iteration orders."
  },
  {
   "property": "C07",
   "status": "proved",
   "theorems": [
    "C07_definitions_never_change"
   ],
   "note": "Over every finite history of calls, failed ones included."
  },
  {
   "property": "C08",
   "status": "partial",
   "theorems": [
    "C08_accepted_iff",
    "C08_reordered_answers_agree",
    "C08_reorder_accepted_partial",
    "C08_reorder_accepted_refuted"
   ],
   "note": "Holds when no struct name is extern in one place and defined in another; false otherwise (C08_reorder_accepted_refuted). Acceptance is characterised exactly."
  },
  {
   "property": "C09",
   "status": "partial",
   "theorems": [
    "C09_addfile_atomic_refuted",
    "C09_failed_addfile_partial",
    "C09_repeated_struct_partial"
   ],
   "note": "The property is false of the code: C09_addfile_atomic_refuted gives a file whose struct stays after the failed call. What holds after any call is C09_failed_addfile_partial: only declarations of that file are added and none is replaced."
  },
  {
   "property": "C10",
   "status": "proved",
   "theorems": [
    "C10_condition_exact",
    "C10_condition_agrees",
    "C10_intervals_exact",
    "C10_intervals_undefined",
    "C10_reversed_range_panics"
   ],
   "note": "Resolver side and generated condition, both against the same reading of the list."
  },
  {
   "property": "C11",
   "status": "proved",
   "theorems": [
    "C11_lookup_agrees",
    "C11_lookup_exact"
   ],
   "note": "Lookup, and running the generated switch, select the same case for every tag value that fits the field."
  },
  {
   "property": "C12",
   "status": "proved",
   "theorems": [
    "C12_only_encodings_accepted",
    "C12_accepted_shape",
    "C12_encodings_accepted",
    "C12_encodings_accepted_refuted",
    "C12_accepts_exactly",
    "C12_accepts_exactly_lenient"
   ],
   "note": "Success exactly on encodings, with exactly those values and that rest; every other call returns an error. The format is an independent inductive relation (WireSpec.v). C12_accepts_exactly_lenient drops the condition on unions, with an unlisted tag standing for an empty union. C12_encodings_accepted_refuted shows that with 64-bit counts of empty elements an encoding can make the parser panic."
  },
  {
   "property": "C13",
   "status": "proved",
   "theorems": [
    "C13_never_panics",
    "C13_wide_lengths_refuted"
   ],
   "note": "Lengths come from fields of at most 32 bits, or from wider ones whose constraint allows only such numbers; C13_wide_lengths_refuted shows a panic otherwise."
  },
  {
   "property": "C14",
   "status": "proved",
   "theorems": [
    "C14_terminates",
    "C14_empty_elements_refuted",
    "C14_recursion_refuted"
   ],
   "note": "Under the progress condition; C14_empty_elements_refuted and C14_recursion_refuted show endless runs without it."
  },
  {
   "property": "C15",
   "status": "proved",
   "theorems": [
    "C15_suffix"
   ],
   "note": ""
  },
  {
   "property": "C16",
   "status": "proved",
   "theorems": [
    "C16_constraint_holds",
    "C16_constraint_holds_elements",
    "C16_violation_is_error"
   ],
   "note": "Fields of the struct, elements of arrays, and the error on violation."
  },
  {
   "property": "C17",
   "status": "proved",
   "theorems": [
    "C17_taken_case_parsed",
    "C17_other_cases_untouched",
    "C17_fail_is_error"
   ],
   "note": ""
  },
  {
   "property": "C18",
   "status": "partial",
   "theorems": [
    "C18_unmatched_tag_refuted",
    "C18_unmatched_tag_is_empty",
    "C18_default_fail_partial"
   ],
   "note": "The property is false of the code: an unmatched tag parses as an empty union (C18_unmatched_tag_refuted, and C18_unmatched_tag_is_empty for all of them). C18_default_fail_partial: with a default of fail the tag is one that is listed."
  },
  {
   "property": "C19",
   "status": "proved",
   "theorems": [
    "C19_length_exact",
    "C19_leftover_exact",
    "C19_leftover_array_exact",
    "C19_too_short_is_error",
    "C19_unused_bytes_is_error",
    "C19_unused_bytes_leftover_is_error"
   ],
   "note": ""
  },
  {
   "property": "C20",
   "status": "proved",
   "theorems": [
    "C20_eos",
    "C20_trailing_is_error"
   ],
   "note": ""
  },
  {
   "property": "C21",
   "status": "proved",
   "theorems": [
    "C21_following_bytes_ignored"
   ],
   "note": ""
  },
  {
   "property": "C22",
   "status": "proved",
   "theorems": [
    "C22_lossless"
   ],
   "note": ""
  },
  {
   "property": "C23",
   "status": "proved",
   "theorems": [
    "C23_nulterm",
    "C23_nul_consumed",
    "C23_no_nul_is_error"
   ],
   "note": ""
  },
  {
   "property": "C24",
   "status": "proved",
   "theorems": [
    "C24_position"
   ],
   "note": "For position fields that are members of the struct itself; the grammar allows no others."
  },
  {
   "property": "C25",
   "status": "proved",
   "theorems": [
    "C25_fixed",
    "C25_counted",
    "C25_remainder"
   ],
   "note": ""
  },
  {
   "property": "C26",
   "status": "proved",
   "theorems": [
    "C26_nested",
    "C26_nested_elements",
    "C26_continues",
    "C26_nested_error"
   ],
   "note": ""
  },
  {
   "property": "C27",
   "status": "proved",
   "theorems": [
    "C27_function_of_data",
    "C27_receiver_fields",
    "C27_receiver_error",
    "C27_receiver_panic",
    "C27_new"
   ],
   "note": ""
  },
  {
   "property": "C28",
   "status": "proved",
   "theorems": [
    "C28_generates_iff",
    "C28_no_errors",
    "C28_unresolved_refuted",
    "C28_checked"
   ],
   "note": "Generation succeeds exactly when all references resolve; otherwise it panics (C28_unresolved_refuted)."
  },
  {
   "property": "C29",
   "status": "partial",
   "theorems": [
    "C29_no_capture_partial",
    "C29_receiver_refuted"
   ],
   "note": "Proved for files that pass the static checks (GenCheck.v), which include that receiver and context names differ from the locals. trunnel does not check this; the refutation is a file it accepts. Missing: nothing that is true of the code without a condition on names."
  },
  {
   "property": "C30",
   "status": "proved",
   "theorems": [
    "C30_merge",
    "C30_merge_new",
    "C30_clone",
    "C30_independent"
   ],
   "note": "For all maps and iteration orders; in the heap, merged and cloned maps are new and no other map changes."
  },
  {
   "property": "C31",
   "status": "partial",
   "theorems": [
    "C31_vectors_accepted_refuted",
    "C31_own_example_refuted",
    "C31_vectors_are_bytes",
    "C31_vectors_accepted_partial",
    "C31_limit",
    "C31_long_refuted"
   ],
   "note": "The full property is false of the code: C31_vectors_accepted_refuted gives three vectors, with three different causes, that the generated tests contain and the generated parser rejects; C31_own_example_refuted gives one for the repository example gen/tests/unionbasic.  C31_vectors_accepted_partial proves it for a statically checked class of declarations (TvClass.v; it allows constraints on tags and lengths that the values chosen always meet) and vectors short enough for the fields that hold lengths of unions (below 256 bytes always, C31_limit); missing are declarations outside the class and longer vectors."
  },
  {
   "property": "C32",
   "status": "partial",
   "theorems": [
    "C32_no_sharing_refuted",
    "C32_no_sharing_partial",
    "C32_selectors"
   ],
   "note": "The property is false of the code: cross appends several times to one slice (C32_no_sharing_refuted). Proved if the elements of arrays have at most one vector each: the result does not depend on the room append leaves (C32_no_sharing_partial). Missing: arrays of structs that have several vectors, for which it is false."
  },
  {
   "property": "C33",
   "status": "proved",
   "theorems": [
    "C33_suites"
   ],
   "note": ""
  },
  {
   "property": "C34",
   "status": "proved",
   "theorems": [
    "C34_lengths_recorded",
    "C34_union",
    "C34_states"
   ],
   "note": "Exactly the fitting candidates are kept, and each records its length. Shown for the real generator: the states the theorem asks for are kept by it."
  },
  {
   "property": "C35",
   "status": "partial",
   "theorems": [
    "C35_finishes_refuted",
    "C35_finishes_partial"
   ],
   "note": "The property is false of the code: an unreachable default and a range in the wrong order panic; a struct containing itself and a default taking all 64-bit tags never return (C35_finishes_refuted). C35_finishes_partial: without these four, generation returns a corpus or an error, for every source in which the word zero keeps coming up."
  },
  {
   "property": "C36",
   "status": "proved",
   "theorems": [
    "C36_sample",
    "C36_all"
   ],
   "note": ""
  },
  {
   "property": "C37",
   "status": "proved",
   "theorems": [
    "C37_corpus_on_disk",
    "C37_failure",
    "C37_outcomes"
   ],
   "note": "For every failure point, including writes that leave part of the data."
  },
  {
   "property": "C38",
   "status": "partial",
   "theorems": [
    "C38_calls_partial",
    "C38_calls_refuted"
   ],
   "note": "Every emitted call has one argument and names the ParseX of a defined struct, which takes one argument more than there are contexts; false for structs with an unused context (C38_calls_refuted)."
  },
  {
   "property": "C39",
   "status": "proved",
   "theorems": [
    "C39_package_order",
    "C39_no_code_no_files",
    "C39_no_failure"
   ],
   "note": ""
  },
  {
   "property": "C40",
   "status": "proved",
   "theorems": [
    "C40_always_returns",
    "C40_one_result"
   ],
   "note": "For every byte string: some amount of fuel suffices, and the result is a file or an error, never a panic."
  },
  {
   "property": "C41",
   "status": "proved",
   "theorems": [
    "C41_failure_restores",
    "C41_declared_once"
   ],
   "note": "C41_failure_restores is about every grammar; C41_declared_once counts the braces of sources without a slash (that is, without comments)."
  },
  {
   "property": "C42",
   "status": "proved",
   "theorems": [
    "C42_shape"
   ],
   "note": ""
  },
  {
   "property": "C43",
   "status": "proved",
   "theorems": [
    "C43_every_shape_has_a_source",
    "C43_image"
   ],
   "note": "The source is built from the AST; C43_image says the shape is exactly the set of results."
  },
  {
   "property": "C44",
   "status": "proved",
   "theorems": [
    "C44_literals",
    "C44_others_rejected"
   ],
   "note": "Stated for constant declarations; other places use the same rule of the grammar (C49)."
  },
  {
   "property": "C45",
   "status": "proved",
   "theorems": [
    "C45_separators"
   ],
   "note": "For accepted and rejected texts."
  },
  {
   "property": "C46",
   "status": "proved",
   "theorems": [
    "C46_all_files",
    "C46_or_error"
   ],
   "note": ""
  },
  {
   "property": "C47",
   "status": "partial",
   "theorems": [
    "C47_simplify_minimal_refuted",
    "C47_simplify_minimal_partial"
   ],
   "note": "The doc comment promise is false: C47_simplify_minimal_refuted. C47_simplify_minimal_partial: touching intervals are the only obstacle."
  },
  {
   "property": "C48",
   "status": "partial",
   "theorems": [
    "C48_reused_receiver_refuted",
    "C48_reused_receiver_partial",
    "C48_no_union_fields_partial"
   ],
   "note": "The property is false of the code: fields of union cases that are not taken keep old values (C48_reused_receiver_refuted). C48_reused_receiver_partial: the outcome is the same for every receiver once every field was parsed. C27 says what does not depend on the receiver in general."
  },
  {
   "property": "C49",
   "status": "proved",
   "theorems": [
    "C49_exact_language",
    "C49_rejected",
    "C49_unambiguous"
   ],
   "note": ""
  },
  {
   "property": "C50",
   "status": "proved",
   "theorems": [
    "C50_utf8"
   ],
   "note": ""
  },
  {
   "property": "C51",
   "status": "proved",
   "theorems": [
    "C51_resolver",
    "C51_code",
    "C51_vectors",
    "C51_output"
   ],
   "note": "The selector and the random source are the same in both runs; the fuel of the model is too."
  },
  {
   "property": "C52",
   "status": "partial",
   "theorems": [
    "C52_compiles_partial",
    "C52_compiles_refuted"
   ],
   "note": "Under conditions on names the package compiles exactly if all integers fit. Ten refutations show source texts for which trunnel emits code that does not compile. Unused imports and limits on array sizes are not checked."
  },
  {
   "property": "C53",
   "status": "proved",
   "theorems": [
    "C53_bad_sources",
    "C53_good_sources"
   ],
   "note": "File names are mapped to paths by a parameter. Flags and exit status belong to the cli package and are not modelled."
  },
  {
   "property": "C54",
   "status": "proved",
   "theorems": [
    "C54_only_outputs"
   ],
   "note": "Directories that are created are not files; they are covered by C37."
  },
  {
   "property": "C55",
   "status": "proved",
   "theorems": [
    "C55_outputs"
   ],
   "note": "The texts of the Go files are parameters (printing and imports.Process); for reading back every vector its name must not collide (SHA-256)."
  },
  {
   "property": "C56",
   "status": "partial",
   "theorems": [
    "C56_corpus_accepted_partial",
    "C56_tests_pass_partial",
    "C56_corpus_accepted_refuted"
   ],
   "note": "Proved for the class of declarations of C31 and inputs short enough for the fields that hold lengths of unions. Refuted in general by a build whose test fails."
  },
  {
   "property": "C57",
   "status": "partial",
   "theorems": [
    "C57_succeeds_refuted",
    "C57_no_error_partial",
    "C57_succeeds_partial"
   ],
   "note": "The property is false of the code: leftover lengths, an integer listed twice, and arrays of structs with vectors for several values of a context field give an error (C57_succeeds_refuted). C57_no_error_partial: no error for declarations without these; C57_succeeds_partial: with the conditions of C35, a corpus is returned."
  },
  {
   "property": "C58",
   "status": "proved",
   "theorems": [
    "C58_outcome",
    "C58_built",
    "C58_parser"
   ],
   "note": "File operations that do not fail and successful printing are hypotheses (smooth). C58_built needs the classes of C31, C35 and C57 and says that tests and corpus files short enough for the fields that hold lengths of unions are accepted; C58_parser is for any successful build, with the conditions of C12."
  },
  {
   "property": "C59",
   "status": "partial",
   "theorems": [
    "C59_no_vectors_refuted",
    "C59_case_missed_refuted",
    "C59_vectors_exist_partial",
    "C59_cases_reached_partial"
   ],
   "note": "The property is false of the code: two unions on one tag may leave a struct without vectors (C59_no_vectors_refuted), and a tag that is also the length of an array keeps a case from being taken (C59_case_missed_refuted). C59_vectors_exist_partial and C59_cases_reached_partial: for declarations of the class of C31 that also pass the check of TvLive.v (tags and union lengths are not used by later members, cases consist of plain members)."
  },
  {
   "property": "C60",
   "status": "partial",
   "theorems": [
    "C60_linear_partial",
    "C60_taken_partial",
    "C60_new_partial",
    "C60_linear_refuted",
    "C60_recursive_partial",
    "C60_recursive_taken_partial",
    "C60_recursive_new_partial",
    "C60_endless_refuted"
   ],
   "note": "The property is false of the code as it stands: a count of empty elements costs as many steps as it counts (C60_linear_refuted) and a struct that contains itself before it takes a byte costs without end (C60_endless_refuted). Proved whenever neither is the case: C60_recursive_partial if the elements of arrays whose lengths are not constants take at least a byte and recursion makes progress; C60_linear_partial gives a smaller price for each struct if no struct contains itself. Elements that append moves are counted, for every way of growing slices that adds at least a fifth."
  },
  {
   "property": "C61",
   "status": "partial",
   "theorems": [
    "C61_memory_partial",
    "C61_new_partial",
    "C61_memory_refuted",
    "C61_counted_partial",
    "C61_counted_new_partial",
    "C61_counted_taken_partial",
    "C61_recursive_partial",
    "C61_recursive_new_partial",
    "C61_counted_recursive_partial",
    "C61_counted_recursive_new_partial",
    "C61_constrained_partial",
    "C61_constrained_taken_partial",
    "C61_constrained_new_partial"
   ],
   "note": "Proved under the conditions of C60 if moreover no array has its length in a field (C61_memory_partial), with structs that contain themselves (C61_recursive_partial) and without. With arrays whose lengths are in fields or contexts (C61_counted_*) the same holds with a price that counts in room for as many elements as the width of the length field allows, or as its constraint allows (C61_constrained_*, for receivers that are fresh or were parsed before). Refuted without that term (C61_memory_refuted): an input of two bytes makes the parser allocate 65535 elements before it reports that the data is too short."
  },
  {
   "property": "C62",
   "status": "partial",
   "theorems": [
    "C62_reports",
    "C62_positions_partial",
    "C62_positions_bytes_partial",
    "C62_characters",
    "C62_positions_refuted",
    "C62_kinds"
   ],
   "note": "C62_kinds: what reports say, for all byte strings. C62_reports is the first half, for all byte strings. Positions: proved except that a place in front of a newline may be given as column zero of the next line; C62_positions_refuted shows that this happens. C62_positions_bytes_partial says the same for all byte strings, where a byte that belongs to no code point counts as one character; C62_characters: every text has exactly one sequence of characters."
  },
  {
   "property": "C63",
   "status": "proved",
   "theorems": [
    "C63_order"
   ],
   "note": ""
  },
  {
   "property": "C64",
   "status": "proved",
   "theorems": [
    "C64_local"
   ],
   "note": "For reports that nothing matched; reports of other errors (numbers that do not fit, encoding) may be joined by further ones."
  },
  {
   "property": "C65",
   "status": "partial",
   "theorems": [
    "C65_finishes_partial",
    "C65_exponential",
    "C65_polynomial_refuted",
    "C65_bound_partial",
    "C65_nesting_partial"
   ],
   "note": "The property is false of the code: structs declared inside of each other are parsed three times per level (C65_exponential), so no polynomial is a bound (C65_polynomial_refuted). C65_finishes_partial: the number exists for every source. C65_bound_partial: it is at most 1523 * (4/3)^n for n bytes, so the growth is exponential and no worse. C65_nesting_partial: if the braces are nested to a bounded depth d and no comment contains a brace, it is bounded by a polynomial, (3978 * (n+1)^6)^(d+2)."
  },
  {
   "property": "C66",
   "status": "proved",
   "theorems": [
    "C66_writes_only_receiver",
    "C66_returning_calls",
    "C66_new_writes_nothing"
   ],
   "note": "On 64-bit platforms. For all calls if lengths have at most 32 bits and recursion makes progress (then every call returns), for the calls that return otherwise. An input slice that lies inside of an array field of the receiver itself cannot be expressed in the model."
  },
  {
   "property": "C67",
   "status": "proved",
   "theorems": [
    "C67_parsed_in_new_memory",
    "C67_new_tree",
    "C67_input_reusable",
    "C67_reused_receiver_refuted"
   ],
   "note": "On 64-bit platforms. A receiver that was used before may keep old pointers and slices in fields the parser does not set (C67_reused_receiver_refuted); what it sets is new."
  },
  {
   "property": "C68",
   "status": "partial",
   "theorems": [
    "C68_same_results",
    "C68_never_ends",
    "C68_nothing_else",
    "C68_32bit_refuted",
    "C68_32bit_same",
    "C68_32bit_new",
    "C68_32bit_results"
   ],
   "note": "Proved for 64-bit platforms: calls that return, calls that never end (C68_never_ends), and with lengths of at most 32 bits nothing else happens (C68_nothing_else). On 32-bit platforms the property is false (C68_32bit_refuted): a 4-byte count of 2^31 makes the parser panic instead of returning an error. Where lengths come from fields of at most 16 bits and memory is well-typed, 32-bit platforms do step for step what 64-bit ones do (C68_32bit_same, C68_32bit_new, C68_32bit_results). Missing: panics of declarations with 64-bit lengths other than those for slices that are too long, and 32-bit length fields with a constraint that keeps them small on 32-bit platforms."
  },
  {
   "property": "C69",
   "status": "proved",
   "theorems": [
    "C69_beginning",
    "C69_final_errors",
    "C69_prefix_free",
    "C69_short_refuted"
   ],
   "note": "For self-delimiting structs (every union with a leftover length, every array without a length and every end of struct is inside of a length; the class is that of C21). The converse, that an error about missing data goes away if data is added, is false and not claimed: C69_short_refuted."
  },
  {
   "property": "C70",
   "status": "proved",
   "theorems": [
    "C70_moved",
    "C70_more_declarations",
    "C70_more_new"
   ],
   "note": "Both lists of files must pass the static checks (GenCheck.v), as for all properties of generated parsers. That the larger list is accepted is a hypothesis; C08 says when it is. C70_moved: for the same declarations in other files acceptance by the resolver is enough."
  },
  {
   "property": "C71",
   "status": "proved",
   "theorems": [
    "C71_same_meaning",
    "C71_same_new"
   ],
   "note": "Both lists of files must pass the static checks (GenCheck.v)."
  },
  {
   "property": "C72",
   "status": "proved",
   "theorems": [
    "C72_joined",
    "C72_cut",
    "C72_cut_refuted",
    "C72_no_newline_refuted",
    "C72_cut_package",
    "C72_joined_package",
    "C72_joined_package_refuted"
   ],
   "note": "Exceptions that are part of the statement, shown to be needed: a rest that begins with a semicolon (C72_cut_refuted), joining without a line break (C72_no_newline_refuted), joining files that declare the same constant (C72_joined_package_refuted). Files of packages pass the static checks (GenCheck.v)."
  },
  {
   "property": "C73",
   "status": "proved",
   "theorems": [
    "C73_names",
    "C73_counterpart",
    "C73_new"
   ],
   "note": "Both versions must pass the static checks (GenCheck.v), which exclude clashes of receiver and context names with variables of the generated code; C29 and C52 show what happens otherwise. C73_counterpart: every call has a counterpart."
  },
  {
   "property": "C74",
   "status": "proved",
   "theorems": [
    "C74_sources_alone",
    "C74_again",
    "C74_repaired",
    "C74_nothing_removed",
    "C74_corpus_kept",
    "C74_code_stays",
    "C74_again_refuted"
   ],
   "note": "Conditions that are part of the statement: no operation fails in the build that repairs, and no source file is an output (needed: C74_again_refuted). Files are whole contents at paths; directories, permissions and concurrent builds are not modelled."
  },
  {
   "property": "C75",
   "status": "proved",
   "theorems": [
    "C75_uniform",
    "C75_rounds"
   ],
   "note": "Stated without probabilities: a permutation of the pairs of draws that exchanges the two elements. The set of all 64-bit integers is excluded as in C04; drawing from it never returns (C05)."
  },
  {
   "property": "C76",
   "status": "proved",
   "theorems": [
    "C76_still_parsed",
    "C76_only_refused",
    "C76_parsed_before",
    "C76_fresh",
    "C76_more_cases"
   ],
   "note": "Which declarations loosen others is defined in ExtSpec.v by meaning (which integers a list contains, which case a tag selects); C76_more_cases gives a criterion for unions by form. Both lists of files must pass the static checks (GenCheck.v). Lengths and counts must not change."
  },
  {
   "property": "C77",
   "status": "proved",
   "theorems": [
    "C77_read_by_older",
    "C77_fresh",
    "C77_more_cases",
    "C77_used_refuted"
   ],
   "note": "Which declarations are newer versions of others is defined in FwdSpec.v; C77_more_cases gives a criterion for unions by form. Ignored input of a union with a length may be replaced by any members, otherwise the new members must end with ignored input again. The condition that structs with additions at the end are not used elsewhere is needed: C77_used_refuted. Both lists of files must pass the static checks (GenCheck.v)."
  },
  {
   "property": "C78",
   "status": "proved",
   "theorems": [
    "C78_written_back",
    "C78_read_back",
    "C78_has_bytes",
    "C78_exactly",
    "C78_again",
    "C78_ignored_refuted"
   ],
   "note": "The writer is a definition of RoundSpec.v; trunnel has none. Ignored input is lost and cannot be written back (C78_ignored_refuted); reading back does not need that condition. Reading back needs the condition of C12 on counted arrays (elements of at least a byte, or lengths of at most 32 bits). C78_exactly has both directions."
  },
  {
   "property": "C79",
   "status": "proved",
   "theorems": [
    "C79_sizes",
    "C79_short",
    "C79_long",
    "C79_none",
    "C79_fixed",
    "C79_least"
   ],
   "note": "The span is a function of the declarations (SizeSpec.v). References count as any number that fits the width of the field and its constraint; fields of contexts are not checked by the parser, so their constraints do not count. Beyond the given depth nested structs count as of any length, so structs that contain themselves are included. Both ends are bounds; that the lower end is reached is shown for plain declarations (C79_least)."
  },
  {
   "property": "C80",
   "status": "proved",
   "theorems": [
    "C80_parallel_parses",
    "C80_all_answered",
    "C80_any_input",
    "C80_alone_is_a_call",
    "C80_steps_write",
    "C80_steps_read",
    "C80_shared_receiver_refuted"
   ],
   "note": "On 64-bit platforms. Goroutines interleave expression by expression and store by store on the memory of GoMem.v; that suffices in the absence of races, which the Go memory model promises to be sequentially consistent. Accesses are counted by object, a whole array or struct, so no race on any part of one remains. C80_steps_write and C80_steps_read show that the accesses counted are all that matter to a step. All goroutines are calls of generated methods: what other code does at the same time is not part of it. The hypothesis that each call returns by itself is dropped in C80_any_input for the packages of C21 and C23. C80_shared_receiver_refuted: with a common receiver there are races."
  },
  {
   "property": "C81",
   "status": "proved",
   "theorems": [
    "C81_errors_have_causes",
    "C81_errors_exact",
    "C81_panics_have_causes",
    "C81_panics_exact",
    "C81_messages",
    "C81_one_of_three"
   ],
   "note": "Places and faults are relations of ReachSpec.v, built on the format of WireSpec.v. That an error has a cause holds without further conditions; that a fault is reported needs the condition of C12 on counted arrays (elements of at least a byte, or lengths of at most 32 bits) and data of at most 2^44 bytes. C81_one_of_three also needs the condition of C14 under which parsers end."
  },
  {
   "property": "C82",
   "status": "proved",
   "theorems": [
    "C82_messages_read",
    "C82_only_messages_read",
    "C82_one_way",
    "C82_stops",
    "C82_ends"
   ],
   "note": "The loop is code of a user, a relation in P_Feed.v over calls of the generated Parse with a new receiver each. Reading back needs the condition of C12 on counted arrays and data of at most 2^44 bytes in total. C82_ends needs the condition of C14 and lengths of at most 32 bits."
  },
  {
   "property": "C83",
   "status": "proved",
   "theorems": [
    "C83_present",
    "C83_constraints",
    "C83_fuzz",
    "C83_test",
    "C83_tests_pass"
   ],
   "note": "The bodies of the emitted functions are definitions of HarnessModel.v that cite their text; they call the parser of C10 with a new receiver. Structs with contexts whose vectors do not record any constraint are excluded by the condition that there are no contexts: their tests do not compile (C38_calls_refuted). That verdicts are exact needs the conditions of C81 (data of at most 2^44 bytes, counted arrays as in C12, recursion that makes progress)."
  },
  {
   "property": "C84",
   "status": "proved",
   "theorems": [
    "C84_regrouped",
    "C84_positions_refuted"
   ],
   "note": "Which members are rearrangements of others is a relation of GroupSpec.v. Both structs are in one package; that further declarations do not change parsers is C70. The receivers are new values. References need no condition: where a member refers to a moved field, no package is generated. The condition on positions is needed: C84_positions_refuted."
  },
  {
   "property": "C85",
   "status": "proved",
   "theorems": [
    "C85_stays_typed",
    "C85_new_typed",
    "C85_usable_again",
    "C85_as_if_new"
   ],
   "note": "Types of values are a definition of TypedSpec.v, by recursion through all that a value contains. C85_stays_typed also covers calls that panic; there the model leaves out what nested calls had stored before, so it says nothing new about real panics. Same rest and fields need the condition on pointer fields as in C27; fields of cases that are not taken keep what they had (C27_receiver_fields)."
  },
  {
   "property": "C86",
   "status": "proved",
   "theorems": [
    "C86_text_is_go",
    "C86_read_once",
    "C86_text_runs",
    "C86_text_accepts_exactly",
    "C86_keyword_refuted"
   ],
   "note": "The text is what is handed to imports.Process. How Go reads text is a specification of its own (GoText.v), for the part of the syntax that is needed; a text outside of it has no reading. The names condition is that of C52; C86_keyword_refuted shows that it is needed. imports.Process is assumed to keep the tokens, up to imports and doubled parentheses; GoldenText.v compares with the committed files of gen/tests."
  },
  {
   "property": "C87",
   "status": "proved",
   "theorems": [
    "C87_tests_text",
    "C87_fuzz_text",
    "C87_build",
    "C87_read_once",
    "C87_runs",
    "C87_tests_pass"
   ],
   "note": "The text is what is handed to imports.Process, which adds the import of testing. What makes a function a test over a table, or a fuzz function, is a specification of its own (GoTestText.v) on top of the reader of C86. A corpus here tells nil slices from empty ones. Running what was read is HarnessModel.v, as in C83, whose conditions on contexts hold here too. GoldenTests.v compares with the committed files of gen/tests."
  },
  {
   "property": "C88",
   "status": "proved",
   "theorems": [
    "C88_parser",
    "C88_tests",
    "C88_built",
    "C88_no_package_name"
   ],
   "note": "The build model over the printed texts (BuildTextModel.v). What is assumed of imports.Process is written out as conditions: it keeps the reading of Go texts (keepsGo), takes them (takesGo), takes nothing without a package clause (wantsClause); C88_case has a function that meets all of them. Which empty data are nil is a parameter. The classes of declarations are those of C12, C31, C35, C57 and C86. Handling of flags and the exit status belong to the cli package and are not modelled."
  },
  {
   "property": "C89",
   "status": "proved",
   "theorems": [
    "C89_bound",
    "C89_selected",
    "C89_exponential",
    "C89_constant_bound_refuted"
   ],
   "note": "CountSpec.v counts the choices. Arrays whose length is in a field are counted only if their elements leave no choice, since the length may then be that of another vector; C89_bound has this as part of counts. C89_constant_bound_refuted records that nothing smaller than an exponential holds with the default selector. Extern structs have no suites."
  },
  {
   "property": "C90",
   "status": "proved",
   "theorems": [
    "C90_parses",
    "C90_fails",
    "C90_fresh",
    "C90_overlap_refuted"
   ],
   "note": "The fields of the generated struct type are in the order of the cases, so values are compared by the names of fields (agree). That no two cases are for the same integer is needed: C90_overlap_refuted. The order of cases does change which test vectors are drawn."
  },
  {
   "property": "C91",
   "status": "proved",
   "theorems": [
    "C91_field",
    "C91_integer",
    "C91_used_refuted",
    "C91_any_length",
    "C91_string"
   ],
   "note": "Fields of the struct itself, not those inside union cases. C91_field keeps the length; C91_any_length and C91_string change it, where no @ptr field after and no array up to the end of data before can see that. Needs the condition of C12 on counted arrays and data of at most 2^44 bytes. C91_used_refuted shows that the condition on references is needed."
  },
  {
   "property": "C92",
   "status": "proved",
   "theorems": [
    "C92_text_lists",
    "C92_one_reading",
    "C92_injective",
    "C92_empty",
    "C92_canonical_refuted"
   ],
   "note": "Reading is a relation of IntervalsTextSpec.v. strconv.FormatUint and strings.Join are written out. C92_canonical_refuted: equal sets need not print alike, since Simplify keeps touching intervals (C47)."
  },
  {
   "property": "C93",
   "status": "proved",
   "theorems": [
    "C93_names",
    "C93_same_name",
    "C93_on_disk"
   ],
   "note": "crypto/sha256 and encoding/hex are written out in CorpusModel.v after FIPS 180-4; C93_case checks them on the three digests that the repository has. That different vectors do not collide is a condition, as in C37."
  },
  {
   "property": "C94",
   "status": "proved",
   "theorems": [
    "C94_lookup",
    "C94_added",
    "C94_added_refuted"
   ],
   "note": "C94_added_refuted records that adding a second suite of the same name has no effect on lookups."
  },
  {
   "property": "C95",
   "status": "proved",
   "theorems": [
    "C95_contexts",
    "C95_none",
    "C95_read_refuted"
   ],
   "note": "What a struct refers to is the inductive relation reads of ContextSpec.v. C95_read_refuted: a field used only by a struct inside does matter."
  },
  {
   "property": "C96",
   "status": "proved",
   "theorems": [
    "C96_array"
   ],
   "note": "For members of a struct that are not inside of a union; both receivers are new. Members of union cases can be moved into a struct first (C84)."
  },
  {
   "property": "C97",
   "status": "proved",
   "theorems": [
    "C97_local",
    "C97_one_change",
    "C97_mentioned_refuted"
   ],
   "note": "About the text before imports.Process, which adds imports and white space. That a constant that is mentioned does matter is C97_mentioned_refuted."
  },
  {
   "property": "C98",
   "status": "proved",
   "theorems": [
    "C98_bytes",
    "C98_cut"
   ],
   "note": "For members of a struct that are not inside of a union; both receivers are new. The integer is one nobody refers to, which acceptance of the other struct implies."
  },
  {
   "property": "C99",
   "status": "proved",
   "theorems": [
    "C99_selected",
    "C99_known"
   ],
   "note": "For unions without a length that are members of the struct itself; both receivers are new. C99_known needs the tag to be constrained to one value, or given by a context."
  },
  {
   "property": "C100",
   "status": "proved",
   "theorems": [
    "C100_opaque",
    "C100_exact",
    "C100_positions_refuted"
   ],
   "note": "For unions that are members of the struct itself; all receivers are new. Data of at most 2^44 bytes, since the array is allocated at once and the union is not. The condition on positions is needed (C100_positions_refuted): in a union with a length a position counts from the start of all data to what is left of the union."
  },
  {
   "property": "C101",
   "status": "proved",
   "theorems": [
    "C101_constraint",
    "C101_eos"
   ],
   "note": "For integers and eos that are members of the struct itself; both receivers are new. C101_constraint also covers panics and calls that do not return, of which C13 and C14 say when there are any."
  },
  {
   "property": "C102",
   "status": "proved",
   "theorems": [
    "C102_earlier"
   ],
   "note": "All receivers are new. The context is the first of the struct and has a name; the members that refer to it are anywhere, also in cases of unions. Structs nested in the first one do not take the context themselves, as the third struct has none to give."
  },
  {
   "property": "C103",
   "status": "proved",
   "theorems": [
    "C103_same"
   ],
   "note": "Within one package, so nested structs are the same; C105 compares packages. A char cannot be referred to, which acceptance of both structs takes care of."
  },
  {
   "property": "C104",
   "status": "proved",
   "theorems": [
    "C104_nested"
   ],
   "note": "Constants and contexts are the same in both sets of files. The parsers of the changed structs, any number of them, are compared on new values only, since nested structs are parsed into new values. The two may take different depths of recursion and numbers of iterations."
  },
  {
   "property": "C105",
   "status": "proved",
   "theorems": [
    "C105_files"
   ],
   "note": "The spellings are those of C103, here in all structs of a set of files at once and for every receiver. C104 does not give this, since the structs that are respelt may use each other."
  },
  {
   "property": "C106",
   "status": "proved",
   "theorems": [
    "C106_plain"
   ],
   "note": "The size of a struct is defined by the relation plains; a struct that contains itself has none. Structs with strings, unions or counted arrays are left to C79, which bounds their lengths."
  },
  {
   "property": "C107",
   "status": "proved",
   "theorems": [
    "C107_counted",
    "C107_known"
   ],
   "note": "The bound on the size of the array is the one of the runtime on 64-bit machines (maxAlloc); above it the counted array panics in make, see C81."
  },
  {
   "property": "C108",
   "status": "proved",
   "theorems": [
    "C108_kept"
   ],
   "note": "An ignore outside of unions is refused by the static checks (the grammar has none there), so only those in cases matter. Which bytes the array has is said as far as that they are a part of the data."
  },
  {
   "property": "C109",
   "status": "proved",
   "theorems": [
    "C109_inside"
   ],
   "note": "C98 is the case of a member of the struct itself; here the integer may be anywhere in it. The count of the array may be a literal or a constant."
  },
  {
   "property": "C110",
   "status": "proved",
   "theorems": [
    "C110_inside"
   ],
   "note": "C101 is the case of a member of the struct itself and a new receiver; here the integer may be anywhere and the receiver is any."
  },
  {
   "property": "C111",
   "status": "proved",
   "theorems": [
    "C111_context"
   ],
   "note": "C107 has members of the struct itself, and counts in the struct as well; here the array may be anywhere and the count is in a context. The bound on the size is the one of the runtime on 64-bit machines (maxAlloc), see C81."
  },
  {
   "property": "C112",
   "status": "proved",
   "theorems": [
    "C112_unreached"
   ],
   "note": "The union is a member of the struct itself, not in a case of another. A default for values that a u8 cannot have beside lists for all 256 is one of the examples."
  },
  {
   "property": "C113",
   "status": "proved",
   "theorems": [
    "C113_selected"
   ],
   "note": "Both unions have at most one default (Go has no switch with two). The same members are to be read for every integer, also for those that the tag cannot have; for these see C112."
  }
 ]
}