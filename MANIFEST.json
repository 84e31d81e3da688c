{
 "claims": [
  {
   "property": "C01",
   "status": "proved",
   "theorems": [
    "C01_cursor_faithful",
    "C01_peek_is_next"
   ],
   "note": ""
  },
  {
   "property": "C02",
   "status": "proved",
   "theorems": [
    "C02_positions",
    "C02_reachable_states",
    "C02_position_of_prefix",
    "C02_last_line_spec"
   ],
   "note": ""
  },
  {
   "property": "C03",
   "status": "proved",
   "theorems": [
    "C03_next_at_end",
    "C03_position_fixed_at_end_refuted",
    "C03_late_calls"
   ],
   "note": "the natural expectation is refuted; exact law proved"
  },
  {
   "property": "C04",
   "status": "proved",
   "theorems": [
    "C04_consume_str",
    "C04_lcp_spec"
   ],
   "note": ""
  },
  {
   "property": "C05",
   "status": "proved",
   "theorems": [
    "C05_ascii_never_panics",
    "C05_panic_exactly",
    "C05_quoted_exactly",
    "C05_never_panics_refuted",
    "C05_quote_refuted"
   ],
   "note": "never panicking is refuted for non-ASCII literals; exact panic condition proved"
  },
  {
   "property": "C06",
   "status": "proved",
   "theorems": [
    "C06_skip_while",
    "C06_prefix_spec"
   ],
   "note": ""
  },
  {
   "property": "C07",
   "status": "proved",
   "theorems": [
    "C07_take_chars"
   ],
   "note": ""
  },
  {
   "property": "C08",
   "status": "proved",
   "theorems": [
    "C08_iter_strict",
    "C08_stops_at_stop",
    "C08_needs_stop_refuted",
    "C08_item_error",
    "C08_terminates"
   ],
   "note": ""
  },
  {
   "property": "C09",
   "status": "proved",
   "theorems": [
    "C09_parse"
   ],
   "note": ""
  },
  {
   "property": "C10",
   "status": "proved",
   "theorems": [
    "C10_sets_are_sets"
   ],
   "note": "All public set operations; sets built by any sequence of them."
  },
  {
   "property": "C100",
   "status": "proved",
   "theorems": [
    "C100_labels",
    "C100_written",
    "C100_regular"
   ],
   "note": "Grammars are first flattened (a concatenation or alternation of one part is that part), which keeps type and language; the parser is that of the emitted items (C94)."
  },
  {
   "property": "C101",
   "status": "proved",
   "theorems": [
    "C101_errors",
    "C101_place",
    "C101_one_place",
    "C101_end",
    "C101_outside",
    "C101_expected",
    "C101_inside",
    "C101_expected_refuted",
    "C101_late_refuted"
   ],
   "note": "Exact. The two _refuted theorems are the witnesses that inside brackets the expected characters and the position can be wrong."
  },
  {
   "property": "C102",
   "status": "proved",
   "theorems": [
    "C102_result",
    "C102_take_ok",
    "C102_longest_start",
    "C102_parse",
    "C102_longest_word_refuted"
   ],
   "note": "take reads the longest start of the text that starts a word, and succeeds exactly if it is one"
  },
  {
   "property": "C103",
   "status": "proved",
   "theorems": [
    "C103_parse",
    "C103_print",
    "C103_linear",
    "C103_bounded",
    "C103_recursion",
    "C103_json_strings"
   ],
   "note": "Stack frames are counted (nested calls of take and fmt), not bytes; boundedness is about texts on which the parser does not panic (C25)."
  },
  {
   "property": "C104",
   "status": "proved",
   "theorems": [
    "C104_brackets",
    "C104_exact",
    "C104_depth",
    "C104_deep"
   ],
   "note": "Nesting counted in calls of Value::take."
  },
  {
   "property": "C105",
   "status": "proved",
   "theorems": [
    "C105_alternation",
    "C105_concatenation",
    "C105_optional",
    "C105_star",
    "C105_plus",
    "C105_no_double",
    "C105_program"
   ],
   "note": "Conditions are on the words of the parts, not on their types."
  },
  {
   "property": "C106",
   "status": "proved",
   "theorems": [
    "C106_stack",
    "C106_union_refuted",
    "C106_not_closed"
   ],
   "note": "The finite list is the grammar's components; the refuted union shows the limit of what can be written."
  },
  {
   "property": "C107",
   "status": "proved",
   "theorems": [
    "C107_parens",
    "C107_exact",
    "C107_flat",
    "C107_deep"
   ],
   "note": "C107_exact gives the exact nesting for texts that have a value; C107_parens the bound for all texts."
  },
  {
   "property": "C108",
   "status": "proved",
   "theorems": [
    "C108_json",
    "C108_arith",
    "C108_both",
    "C108_later",
    "C108_nibble",
    "C108_nibble_refuted"
   ],
   "note": "C108_nibble_refuted shows that autonibble's parser reports some mistakes late (a defect of its grammar); C108_nibble that it never does so early."
  },
  {
   "property": "C109",
   "status": "proved",
   "theorems": [
    "C109_count",
    "C109_count_epsilon",
    "C109_doubling"
   ],
   "note": "Exact number of generated types for fixed-point-free grammars, with and without epsilon (with fixed points equality of types also depends on names: C30, C83), and the exponential family."
  },
  {
   "property": "C11",
   "status": "proved",
   "theorems": [
    "C11_type_operations"
   ],
   "note": "The alternation case needs the two checks the code makes before calling alt (C11_alt_needs_apart shows why)."
  },
  {
   "property": "C110",
   "status": "proved",
   "theorems": [
    "C110_triples",
    "C110_mirrored",
    "C110_at_most",
    "C110_marked",
    "C110_at_least",
    "C110_stack",
    "C110_intersection",
    "C110_reversal",
    "C110_renaming",
    "C110_beginnings"
   ],
   "note": "The existence theorems name concrete accepted expressions with their exact languages; the negative theorems range over all accepted expressions."
  },
  {
   "property": "C111",
   "status": "proved",
   "theorems": [
    "C111_rearranged",
    "C111_loosened",
    "C111_tightened_refuted",
    "C111_common_front"
   ],
   "note": "The converse of C111_loosened is refuted by a concrete pair."
  },
  {
   "property": "C112",
   "status": "proved",
   "theorems": [
    "C112_unused",
    "C112_let",
    "C112_argument",
    "C112_argument_let"
   ],
   "note": "Equivalence of grammars, acceptance and reduction errors for programs that differ in unused definitions. Unused arguments: for a call of any expression that reduces to a function, and for a named function."
  },
  {
   "property": "C113",
   "status": "proved",
   "theorems": [
    "C113_rewritten",
    "C113_outcome",
    "C113_exchange"
   ],
   "note": "Grammar, acceptance, reduction errors and non-termination for rewritings in both directions; exchange of definitions as a corollary."
  },
  {
   "property": "C114",
   "status": "proved",
   "theorems": [
    "C114_idle",
    "C114_language"
   ],
   "note": "For fixed points that reduce to a closed grammar with one variable per fixed point."
  },
  {
   "property": "C12",
   "status": "proved",
   "theorems": [
    "C12_guard_rule",
    "C12_context_restored"
   ],
   "note": "Lookup rule for every history of binders/unguards; state-threaded inference returns the context unchanged on every outcome."
  },
  {
   "property": "C13",
   "status": "proved",
   "theorems": [
    "C13_inference_terminates",
    "C13_program_bound"
   ],
   "note": "Every expression, every reachable context; result independent of the fuel."
  },
  {
   "property": "C14",
   "status": "proved",
   "theorems": [
    "C14_accepts_exactly_typable",
    "C14_program"
   ],
   "note": "Against the declarative rules of SpecTyping.v."
  },
  {
   "property": "C15",
   "status": "proved",
   "theorems": [
    "C15_inferred_type_is_least"
   ],
   "note": ""
  },
  {
   "property": "C16",
   "status": "proved",
   "theorems": [
    "C16_type_describes_language",
    "C16_language_fix_solution",
    "C16_language_fix_least"
   ],
   "note": ""
  },
  {
   "property": "C17",
   "status": "proved",
   "theorems": [
    "C17_nullable_exact"
   ],
   "note": ""
  },
  {
   "property": "C18",
   "status": "proved",
   "theorems": [
    "C18_structure_kept",
    "C18_grammar_kept"
   ],
   "note": ""
  },
  {
   "property": "C19",
   "status": "proved",
   "theorems": [
    "C19_left_recursion_rejected"
   ],
   "note": "Left recursion defined semantically (SpecGuard.v), including through empty words."
  },
  {
   "property": "C20",
   "status": "proved",
   "theorems": [
    "C20_no_call_or_let"
   ],
   "note": ""
  },
  {
   "property": "C21",
   "status": "proved",
   "theorems": [
    "C21_unfold",
    "C21_simple",
    "C21_parameters_ignored",
    "C21_capture_refuted"
   ],
   "note": "the original claim (rejected or each parameter keeps its meaning) is refuted; exact law proved"
  },
  {
   "property": "C22",
   "status": "proved",
   "theorems": [
    "C22_decides_language",
    "C22_rejects",
    "C30_sharing_refuted"
   ],
   "note": "sharing condition needed; witness that it cannot be dropped"
  },
  {
   "property": "C23",
   "status": "proved",
   "theorems": [
    "C23_parse_print",
    "C23_parse_tree",
    "C23_take_print"
   ],
   "note": ""
  },
  {
   "property": "C24",
   "status": "proved",
   "theorems": [
    "C24_tree_recovered",
    "C24_take_stops"
   ],
   "note": ""
  },
  {
   "property": "C25",
   "status": "proved",
   "theorems": [
    "C25_terminates",
    "C25_result",
    "C25_no_panic",
    "C25_ascii_no_panic",
    "C25_never_panics_refuted",
    "C25_panics_iff"
   ],
   "note": ""
  },
  {
   "property": "C26",
   "status": "proved",
   "theorems": [
    "C26_unambiguous",
    "C26_words_are_yields"
   ],
   "note": ""
  },
  {
   "property": "C27",
   "status": "proved",
   "theorems": [
    "C27_earliest_error"
   ],
   "note": ""
  },
  {
   "property": "C28",
   "status": "proved",
   "theorems": [
    "C28_linear"
   ],
   "note": "cost model: number of take calls"
  },
  {
   "property": "C29",
   "status": "proved",
   "theorems": [
    "C29_error_position"
   ],
   "note": ""
  },
  {
   "property": "C30",
   "status": "proved",
   "theorems": [
    "C30_sharing_sound",
    "C30_closed_fixes",
    "C30_sharing_refuted"
   ],
   "note": ""
  },
  {
   "property": "C31",
   "status": "proved",
   "theorems": [
    "C31_emitted"
   ],
   "note": ""
  },
  {
   "property": "C32",
   "status": "proved",
   "theorems": [
    "C32_distinct_types",
    "C32_not_reserved",
    "C32_distinct_types_refuted",
    "C32_alias",
    "C32_alias_fresh",
    "C32_alias_refuted"
   ],
   "note": "heck's case conversion is a parameter"
  },
  {
   "property": "C33",
   "status": "proved",
   "theorems": [
    "C33_distinct_parts",
    "C33_distinct_parts_refuted"
   ],
   "note": "heck's case conversion is a parameter"
  },
  {
   "property": "C34",
   "status": "proved",
   "theorems": [
    "C34_finite_size"
   ],
   "note": ""
  },
  {
   "property": "C35",
   "status": "proved",
   "theorems": [
    "C35_char_conversion"
   ],
   "note": ""
  },
  {
   "property": "C36",
   "status": "proved",
   "theorems": [
    "C36_no_panic"
   ],
   "note": ""
  },
  {
   "property": "C38",
   "status": "proved",
   "theorems": [
    "C38_substitute"
   ],
   "note": "against simultaneous substitution on de Bruijn terms; names are covered by C51"
  },
  {
   "property": "C39",
   "status": "proved",
   "theorems": [
    "C39_call"
   ],
   "note": ""
  },
  {
   "property": "C40",
   "status": "proved",
   "theorems": [
    "C40_sound",
    "C40_exact"
   ],
   "note": ""
  },
  {
   "property": "C41",
   "status": "proved",
   "theorems": [
    "C41_scoped"
   ],
   "note": ""
  },
  {
   "property": "C42",
   "status": "proved",
   "theorems": [
    "C42_evaluated"
   ],
   "note": ""
  },
  {
   "property": "C43",
   "status": "proved",
   "theorems": [
    "C43_unique",
    "C43_grammars"
   ],
   "note": "standardisation theorem for beta reduction"
  },
  {
   "property": "C44",
   "status": "proved",
   "theorems": [
    "C44_terminates_refuted",
    "C44_returns",
    "C44_typed"
   ],
   "note": "the original claim (always terminates) is refuted; the exact law is proved, and termination of simply typed programs by a logical relation"
  },
  {
   "property": "C45",
   "status": "proved",
   "theorems": [
    "C45_errors",
    "C45_never_panics",
    "C45_error_values"
   ],
   "note": ""
  },
  {
   "property": "C46",
   "status": "proved",
   "theorems": [
    "C46_idempotent"
   ],
   "note": ""
  },
  {
   "property": "C47",
   "status": "proved",
   "theorems": [
    "C47_scoping",
    "C47_scoping_phrase",
    "C47_closed"
   ],
   "note": "conversion against the declarative resolution relation means/means_stmt"
  },
  {
   "property": "C48",
   "status": "proved",
   "theorems": [
    "C48_undeclared",
    "C48_undeclared_spec"
   ],
   "note": "error names the first undeclared identifier"
  },
  {
   "property": "C49",
   "status": "proved",
   "theorems": [
    "C49_context_restored",
    "C49_context_extended"
   ],
   "note": "for success and failure"
  },
  {
   "property": "C50",
   "status": "proved",
   "theorems": [
    "C50_renaming"
   ],
   "note": "alpha-equivalence defined in SpecScope"
  },
  {
   "property": "C51",
   "status": "proved",
   "theorems": [
    "C51_merge",
    "C51_merge_all",
    "C51_merge_all_none"
   ],
   "note": ""
  },
  {
   "property": "C52",
   "status": "proved",
   "theorems": [
    "C52_equality",
    "C52_names",
    "C52_transitive_refuted",
    "C52_transitive_exact"
   ],
   "note": "names equal exactly when kinds, words and rawness agree; transitivity refuted, exact failure proved"
  },
  {
   "property": "C53",
   "status": "proved",
   "theorems": [
    "C53_parse_print",
    "C53_unambiguous"
   ],
   "note": "over syn token streams without None-delimited groups"
  },
  {
   "property": "C54",
   "status": "proved",
   "theorems": [
    "C54_sound",
    "C54_complete",
    "C54_errors",
    "C54_no_panic"
   ],
   "note": "composition of all stages of main"
  },
  {
   "property": "C55",
   "status": "proved",
   "theorems": [
    "C55_value",
    "C55_error",
    "C55_never_hangs",
    "C55_panic",
    "C55_failing_calculation_panics",
    "C55_one_value",
    "C55_exact_in_debug",
    "C55_release_agrees",
    "C55_modular_in_release",
    "C55_exact_refuted"
   ],
   "note": "The originally hoped-for \"always the exact value\" is refuted (overflow); the exact law is proved for both build modes."
  },
  {
   "property": "C56",
   "status": "proved",
   "theorems": [
    "C56_always_zero",
    "C56_otherwise_error",
    "C56_value_refuted",
    "C56_string"
   ],
   "note": "The claim that the digits' value is returned is refuted (C56_value_refuted: out *= 16 + d); the exact behaviour is proved."
  },
  {
   "property": "C57",
   "status": "proved",
   "theorems": [
    "C57_decode_pair",
    "C57_round_trip",
    "C57_range",
    "C57_injective"
   ],
   "note": ""
  },
  {
   "property": "C58",
   "status": "proved",
   "theorems": [
    "C58_panics",
    "C58_round_trip",
    "C58_string",
    "C58_never_panics_refuted",
    "C58_unicode_refuted"
   ],
   "note": "Original 'never panics' refuted; exact panic condition and full round trip proved. f64 parsing and printing are parameters."
  },
  {
   "property": "C59",
   "status": "proved",
   "theorems": [
    "C59_language",
    "C59_panics",
    "C59_total",
    "C59_unambiguous",
    "C59_no_value_panics",
    "C59_empty_array_refuted",
    "C59_empty_object_refuted"
   ],
   "note": "Original (white space in empty containers) refuted; exact language and exact panic condition proved."
  },
  {
   "property": "C60",
   "status": "proved",
   "theorems": [
    "C60_names",
    "C60_call",
    "C60_cat",
    "C60_alt",
    "C60_characters",
    "C60_ends"
   ],
   "note": "Stated on values of the generated types of autonibble's grammar (the table is the compiler model run on the grammar, AutoTable); the items are values of the item types and, in order with the separators, make up the text."
  },
  {
   "property": "C61",
   "status": "proved",
   "theorems": [
    "C61_sets_exact",
    "C61_unproductive_inexact"
   ],
   "note": ""
  },
  {
   "property": "C62",
   "status": "proved",
   "theorems": [
    "C62_unique_solution"
   ],
   "note": ""
  },
  {
   "property": "C63",
   "status": "proved",
   "theorems": [
    "C63_accepted_closed"
   ],
   "note": ""
  },
  {
   "property": "C64",
   "status": "proved",
   "theorems": [
    "C64_error_position"
   ],
   "note": ""
  },
  {
   "property": "C65",
   "status": "proved",
   "theorems": [
    "C65_names",
    "C65_goal_name",
    "C65_let_name"
   ],
   "note": ""
  },
  {
   "property": "C66",
   "status": "proved",
   "theorems": [
    "C66_positions",
    "C66_positions_phrase"
   ],
   "note": "join is an arbitrary parameter"
  },
  {
   "property": "C67",
   "status": "proved",
   "theorems": [
    "C67_language",
    "C67_returns",
    "C67_agrees"
   ],
   "note": "About the grammar as written in the repository; tokenizing is done by Source.v."
  },
  {
   "property": "C68",
   "status": "proved",
   "theorems": [
    "C68_same_value",
    "C68_same_panic",
    "C68_release",
    "C68_release_refuted"
   ],
   "note": "Equality in release builds is refuted; the one-sided law is proved."
  },
  {
   "property": "C69",
   "status": "proved",
   "theorems": [
    "C69_language",
    "C69_returns"
   ],
   "note": "The compiler model is run on the grammar text; the table it returns is the one the theorems are about. The type names nibble.rs relies on (Opt5, Alt148, Lit75, ...) come out right (C69_ex_names)."
  },
  {
   "property": "C70",
   "status": "proved",
   "theorems": [
    "C70_value",
    "C70_panics",
    "C70_unambiguous",
    "C70_no_panic",
    "C70_never_panics_refuted"
   ],
   "note": "f64 parsing is a parameter."
  },
  {
   "property": "C71",
   "status": "proved",
   "theorems": [
    "C71_agree",
    "C71_same_language_refuted",
    "C71_non_ascii_refuted",
    "C71_same_value_refuted",
    "C71_agree_exactly",
    "C71_both_accept"
   ],
   "note": "exact agreement; differences shown by witnesses"
  },
  {
   "property": "C72",
   "status": "proved",
   "theorems": [
    "C72_round_trip",
    "C72_non_ascii_refuted"
   ],
   "note": "f64 parsing and printing are parameters."
  },
  {
   "property": "C73",
   "status": "proved",
   "theorems": [
    "C73_language",
    "C73_returns"
   ],
   "note": "The compiler model run on autonibble's grammar as written; texts of programs are specified in SpecAuto without the generated parser."
  },
  {
   "property": "C74",
   "status": "proved",
   "theorems": [
    "C74_conversion",
    "C74_equal",
    "C74_outcomes",
    "C74_unprintable",
    "C74_never_panics_refuted"
   ],
   "note": "Agreement with chomp's conversion up to spans and raw text of names; the panic on a surrogate escape is a witness, with the exact condition beside it."
  },
  {
   "property": "C75",
   "status": "proved",
   "theorems": [
    "C75_agree",
    "C75_equal",
    "C75_exactly",
    "C75_chomp_first",
    "C75_auto_first"
   ],
   "note": "chomp's side includes a model of proc_macro2's lexer on the ASCII subset (Source.lex), conservative elsewhere."
  },
  {
   "property": "C76",
   "status": "proved",
   "theorems": [
    "C76_only_auto_refuted",
    "C76_only_chomp_refuted",
    "C75_exactly"
   ],
   "note": "Refuted expectation (the two front ends accept the same programs), with witnesses both ways and the exact law in C75_exactly."
  },
  {
   "property": "C77",
   "status": "proved",
   "theorems": [
    "C77_type_check",
    "C77_same_parser",
    "C77_programs",
    "C77_labels_refuted"
   ],
   "note": "Same grammar, same type checking and same parser; refuted without the sharing condition (a label separates or merges two fixed points)."
  },
  {
   "property": "C78",
   "status": "proved",
   "theorems": [
    "C78_positions",
    "C78_code",
    "C78_layout",
    "C78_layout_code"
   ],
   "note": "Same code and same errors up to positions for token streams equal up to positions and for texts equal up to white space"
  },
  {
   "property": "C79",
   "status": "proved",
   "theorems": [
    "C79_same_code",
    "C79_same_outcome",
    "C79_same_parser",
    "C79_unnamed_refuted"
   ],
   "note": "Identical code for named goals; same outcome and same parsers for all; the code differs for an unnamed goal (witness). Restricted to texts both front ends read (C73-C76 say which)"
  },
  {
   "property": "C80",
   "status": "proved",
   "theorems": [
    "C80_located",
    "C80_truthful",
    "C80_guarded",
    "C80_free",
    "C80_unproductive_refuted"
   ],
   "note": "explains (SpecDefect.v) is about languages; the productivity hypothesis is only for the errors about sets, and C80_unproductive_refuted shows it is needed"
  },
  {
   "property": "C81",
   "status": "proved",
   "theorems": [
    "C81_exactly",
    "C81_accepted_has_no_defect",
    "C81_rejected",
    "C81_only_ghosts"
   ],
   "note": "defect (SpecDefect.v) mentions languages only"
  },
  {
   "property": "C82",
   "status": "proved",
   "theorems": [
    "C82_errors_true",
    "C82_first_bad_position",
    "C82_incomplete",
    "C82_unproductive_refuted"
   ],
   "note": "says is in SpecViable.v; C82_incomplete and C82_unproductive_refuted give the limits"
  },
  {
   "property": "C83",
   "status": "proved",
   "theorems": [
    "C83_distinct",
    "C83_size",
    "C83_again",
    "C83_parts",
    "C83_epsilon_refuted"
   ],
   "note": "Uniqueness of definitions by component types; the \u03b5 exception is exhibited (eps_id is never assigned in gen_epsilon). C83_again and C83_parts assume no raw identifiers, since name equality is not transitive otherwise (C52)."
  },
  {
   "property": "C84",
   "status": "proved",
   "theorems": [
    "C84_errors",
    "C84_names"
   ],
   "note": "Positions and names are followed through every stage (OriginFacts.v). Spans are opaque and [join] is arbitrary."
  },
  {
   "property": "C85",
   "status": "proved",
   "theorems": [
    "C85_true",
    "C85_distinct",
    "C85_exit",
    "C85_macro"
   ],
   "note": "The text of syntax errors is syn's and a parameter. Complaints about character sets are judged for productive grammars, see C80/C81. All eleven sentences are exhibited by programs in C85_ex."
  },
  {
   "property": "C86",
   "status": "proved",
   "theorems": [
    "C86_text",
    "C86_readable",
    "C86_debug"
   ],
   "note": "The standard library's {:?} is a parameter of the message; C86_debug proves the needed property of its documented escapes (with the printable table a parameter)."
  },
  {
   "property": "C87",
   "status": "proved",
   "theorems": [
    "C87_same_value",
    "C87_white_space",
    "C87_one_value",
    "C87_hand",
    "C87_hand_panics",
    "C87_hand_release",
    "C87_language",
    "C87_tab_refuted",
    "C87_release_refuted"
   ],
   "note": "LALRPOP is taken to read exactly the sentences of its grammar, tokenized by its default lexer; the two _refuted theorems are the exact differences (white space other than the space; wrapping of numbers without overflow checks)."
  },
  {
   "property": "C88",
   "status": "proved",
   "theorems": [
    "C88_complete",
    "C88_sound",
    "C88_language",
    "C88_one_value",
    "C88_generated",
    "C88_hand",
    "C88_round_trip",
    "C88_point_refuted",
    "C88_plus_refuted",
    "C88_space_refuted",
    "C88_panics_refuted"
   ],
   "note": "LALRPOP is taken to read exactly the sentences of its grammar, tokenized by its default longest-match lexer. str::parse::<f64> is a parameter. The _refuted theorems are the differences from the other readers."
  },
  {
   "property": "C89",
   "status": "proved",
   "theorems": [
    "C89_parts_may_be_refined",
    "C89_same_type_interchangeable",
    "C89_words_grow",
    "C89_same_words_interchangeable"
   ],
   "note": "compositionality of type checking, with examples both ways"
  },
  {
   "property": "C90",
   "status": "proved",
   "theorems": [
    "C90_unrolling",
    "C90_accepted"
   ],
   "note": "one-parameter condition as in C21"
  },
  {
   "property": "C91",
   "status": "proved",
   "theorems": [
    "C91_two_parts",
    "C91_two_expected",
    "C91_never_said"
   ],
   "note": "Exact for programs; the contrasting library-built case is in C91_ex."
  },
  {
   "property": "C92",
   "status": "proved",
   "theorems": [
    "C92_determined",
    "C92_readable",
    "C92_conditions",
    "C92_index_lost"
   ],
   "note": ""
  },
  {
   "property": "C93",
   "status": "proved",
   "theorems": [
    "C93_exact",
    "C93_reflexive",
    "C93_symmetric",
    "C93_transitive",
    "C93_transitive_refuted",
    "C93_same_reduction"
   ],
   "note": ""
  },
  {
   "property": "C94",
   "status": "proved",
   "theorems": [
    "C94_emitted",
    "C94_well_formed",
    "C94_well_formed_alias",
    "C94_runs",
    "C94_decides",
    "C94_errors",
    "C94_prints",
    "C94_values",
    "C94_char",
    "C94_well_formed_refuted",
    "C94_parts_refuted"
   ],
   "note": "well_formed is a hand-written list of the rules of Rust the items could break; sharing_ok as in C30 for the language and the trees"
  },
  {
   "property": "C95",
   "status": "proved",
   "theorems": [
    "C95_well_formed",
    "C95_parser",
    "C95_text",
    "C95_no_panic",
    "C95_compiles",
    "C95_clean_refuted",
    "C95_panic_refuted"
   ],
   "note": "heck's conversion on ASCII names as in Source.v"
  },
  {
   "property": "C96",
   "status": "proved",
   "theorems": [
    "C96_three_rounds",
    "C96_three_rounds_in",
    "C96_bound",
    "C96_exponential"
   ],
   "note": "cost is the number of calls of the fold"
  },
  {
   "property": "C97",
   "status": "proved",
   "theorems": [
    "C97_sound",
    "C97_complete",
    "C97_unambiguous",
    "C97_rejected"
   ],
   "note": "on the lexical subset of Source.v"
  },
  {
   "property": "C98",
   "status": "proved",
   "theorems": [
    "C98_regular"
   ],
   "note": "Type checker and grammar level (see DESIGN)."
  },
  {
   "property": "C99",
   "status": "proved",
   "theorems": [
    "C99_errors",
    "C99_place",
    "C99_earliest",
    "C99_late_refuted"
   ],
   "note": ""
  }
 ]
}