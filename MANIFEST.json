{
 "claims": [
  {
   "property": "C01",
   "status": "proved",
   "theorems": [
    "C01_eat_splits",
    "C01_new",
    "C01_new_at"
   ],
   "note": "Eat on any window inside its source."
  },
  {
   "property": "C02",
   "status": "proved",
   "theorems": [
    "C02_eat_string_exact"
   ],
   "note": "Both directions, for every string."
  },
  {
   "property": "C03",
   "status": "proved",
   "theorems": [
    "C03_position_correct",
    "C03_position_faithful"
   ],
   "note": "Position is the declarative line/column; injective and monotone in the offset."
  },
  {
   "property": "C04",
   "status": "proved",
   "theorems": [
    "C04_merge_succeeds_iff",
    "C04_merge_least_cover",
    "C04_merge_order_irrelevant"
   ],
   "note": "Success condition, least cover, order independence."
  },
  {
   "property": "C05",
   "status": "proved",
   "theorems": [
    "C05_contains_is_cover",
    "C05_contains_partial_order"
   ],
   "note": "Contains is range inclusion and a partial order."
  },
  {
   "property": "C06",
   "status": "partial",
   "theorems": [
    "C06_strip_source_keeps_text_partial",
    "C06_strip_source_position_refuted"
   ],
   "note": "Text, offset, length, file name kept and idempotent: proved. Position after StripSource: refuted by witness (panic, and wrong value)."
  },
  {
   "property": "C07",
   "status": "proved",
   "theorems": [
    "C07_context_nolimit",
    "C07_context_limit"
   ],
   "note": "NoLimit and every limit >= 0. Colour codes and file name not modelled."
  },
  {
   "property": "C08",
   "status": "proved",
   "theorems": [
    "C08_success_consumes_all",
    "C08_unconsumed_reports_rest",
    "C08_residue_is_suffix",
    "C08_match_decides"
   ],
   "note": "Success consumes everything; the unconsumed-input error carries exactly the rest. Escapes not used (ParseWithExternals is outside the model)."
  },
  {
   "property": "C09",
   "status": "proved",
   "theorems": [
    "C09_parsers_move_forward",
    "C09_parse_moves_forward"
   ],
   "note": "Every parser, every outcome that returns; for any engine meeting engine_ok."
  },
  {
   "property": "C10",
   "status": "proved",
   "theorems": [
    "C10_leaves_ordered"
   ],
   "note": "Leaves of a successful parse are disjoint and in source order, inside the input; patterns with one capture group included."
  },
  {
   "property": "C11",
   "status": "proved",
   "theorems": [
    "C11_lossless"
   ],
   "note": "For grammars whose regexps have no capture group and no look-ahead: the leaves concatenate to the input."
  },
  {
   "property": "C12",
   "status": "proved",
   "theorems": [
    "C12_parses_are_derivations"
   ],
   "note": "Every tree returned is a derivation of the grammar given."
  },
  {
   "property": "C13",
   "status": "proved",
   "theorems": [
    "C13_parser_is_peg",
    "C13_textbook_peg"
   ],
   "note": "Both directions, for grammars without cut points: result equals the PEG reading, and for the pure fragment the textbook PEG."
  },
  {
   "property": "C14",
   "status": "proved",
   "theorems": [
    "C14_repetition_bounds",
    "C14_repetition_fails"
   ],
   "note": "Bounds, greediness and the exact failure conditions."
  },
  {
   "property": "C15",
   "status": "proved",
   "theorems": [
    "C15_look_ahead"
   ],
   "note": "Succeeds iff body does, same error, never moves the scanner."
  },
  {
   "property": "C16",
   "status": "proved",
   "theorems": [
    "C16_delimited_rule",
    "C16_delimited_anywhere",
    "C16_reading_order"
   ],
   "note": "At the level of Parse, of derivations, and the reading order of nested trees."
  },
  {
   "property": "C17",
   "status": "proved",
   "theorems": [
    "C17_back_reference"
   ],
   "note": "For bound values whose leaves are text and which the engine takes as literals."
  },
  {
   "property": "C18",
   "status": "proved",
   "theorems": [
    "C18_cuts_only_prune"
   ],
   "note": "Accepting with cut points implies accepting the erased grammar with the same tree up to tidy; drawn identifiers must be distinct."
  },
  {
   "property": "C19",
   "status": "proved",
   "theorems": [
    "C19_cut_commits"
   ],
   "note": "A failure after a cut in a committed sequence aborts the whole parse."
  },
  {
   "property": "C20",
   "status": "proved",
   "theorems": [
    "C20_ids_do_not_matter",
    "C20_collisions_matter"
   ],
   "note": "Injective renaming of drawn identifiers changes nothing; with collisions refuted by witness."
  },
  {
   "property": "C21",
   "status": "partial",
   "theorems": [
    "C21_marking_only_prunes_partial",
    "C21_shared_rule_refuted",
    "C21_overlap_refuted",
    "C21_trailing_refuted",
    "C21_wrap_refuted",
    "C21_predictive_preserved"
   ],
   "note": "Refuted by four witnesses (shared literal rule, regexp overlap, trailing separator, literal listed in .wrapRE). What holds: insertion never adds inputs or changes trees, when no single literal is listed in .wrapRE; and on predictive textbook grammars it changes nothing that is accepted."
  },
  {
   "property": "C22",
   "status": "proved",
   "theorems": [
    "C22_literal_exact"
   ],
   "note": "For every engine meeting engine_ok; literals the engine can compile."
  },
  {
   "property": "C23",
   "status": "partial",
   "theorems": [
    "C23_capture_groups_partial",
    "C23_two_groups_refuted",
    "C23_unset_group_refuted"
   ],
   "note": "Proved for patterns with 0 or 1 group. Refuted by witness: two groups panic; a group that takes no part gives a leaf before the match."
  },
  {
   "property": "C24",
   "status": "proved",
   "theorems": [
    "C24_well_founded_terminates",
    "C24_stacks_terminate",
    "C24_wbnf_terminates"
   ],
   "note": "For grammars with and without stacks (no stacks inside nested grammars); instance: wbnf's own grammar."
  },
  {
   "property": "C25",
   "status": "partial",
   "theorems": [
    "C25_empty_repetition_hangs",
    "C25_hangs_everywhere_refuted"
   ],
   "note": "Expected property refuted: \"x\"?* runs out of every amount of fuel on every input. General theorem for unbounded repetitions of empty matches."
  },
  {
   "property": "C26",
   "status": "proved",
   "theorems": [
    "C26_stacks_become_chains",
    "C26_no_at_left",
    "C26_chains_unique",
    "C26_stacks_are_shorthand"
   ],
   "note": "Chains are unique, contain no @ or stack, everything else is kept, and stacks compile and parse like the chains; assumes no rule is named like a layer."
  },
  {
   "property": "C27",
   "status": "proved",
   "theorems": [
    "C27_map_order"
   ],
   "note": "Any listing order of the grammar map and of nested maps; rule names distinct and not those of layers."
  },
  {
   "property": "C28",
   "status": "partial",
   "theorems": [
    "C28_named_reference_refuted",
    "C28_cut_reference_refuted",
    "C28_callable_never_panics",
    "C28_stacks_never_panic",
    "C28_wbnf_never_panics"
   ],
   "note": "Refuted for named and cut references; never panics for callable grammars (stacks included); instance: wbnf's own grammar."
  },
  {
   "property": "C29",
   "status": "proved",
   "theorems": [
    "C29_parsed_leaves",
    "C29_leaves",
    "C29_compiled_leaves"
   ],
   "note": "Stated for results of Parse, with and without stacks, and for any tree whose choices have one child; grammars without external references."
  },
  {
   "property": "C30",
   "status": "proved",
   "theorems": [
    "C30_counters_sound",
    "C30_parsed_fit",
    "C30_recorded_single",
    "C30_recorded_all",
    "C30_trees_convert",
    "C30_parsed_convert",
    "C30_wbnf_converts"
   ],
   "note": "For stack-free compiled grammars without associative lists, external references or list separators, in which a name means the same everywhere and stack levels are not mixed; parse results fit and convert; instance: every text wbnf's own grammar parses."
  },
  {
   "property": "C31",
   "status": "partial",
   "theorems": [
    "C31_lists_never_convert",
    "C31_left_list_refuted",
    "C31_right_list_refuted",
    "C31_list_separator_refuted",
    "C31_named_rule_refuted",
    "C31_mixed_levels_refuted"
   ],
   "note": "Expected property refuted by five witnesses; that associative lists of nodes never convert is proved for all grammars, items and amounts of work."
  },
  {
   "property": "C32",
   "status": "partial",
   "theorems": [
    "C32_from_keeps_grammar",
    "C32_to_keeps_grammar",
    "C32_scoped_refuted",
    "C32_second_conversion_refuted"
   ],
   "note": "Refuted with scoped grammars by witnesses (a rule is overwritten, the next conversion panics); proved without them, both directions."
  },
  {
   "property": "C33",
   "status": "proved",
   "theorems": [
    "C33_trees",
    "C33_parsed",
    "C33_shared_literal_lost",
    "C33_token_panics",
    "C33_alias_retagged",
    "C33_look_ahead_unwrapped",
    "C33_leading_separator_panics",
    "C33_back_reference_panics"
   ],
   "note": "Exact round trip, tags and extras included, for every tree of the class and for every parse result of a compiled grammar in the class; witnesses show what goes wrong outside it (shared literals, tokens at the top, aliases, look-ahead, optional separators, back references)."
  },
  {
   "property": "C34",
   "status": "partial",
   "theorems": [
    "C34_covering_range",
    "C34_any_order",
    "C34_empty_child_refuted"
   ],
   "note": "Proved for every AST in which a list of children has leaves in all or in none of its members, for every map order; refuted outside (empty child: panic)."
  },
  {
   "property": "C35",
   "status": "proved",
   "theorems": [
    "C35_decides_content",
    "C35_reflexive",
    "C35_symmetric",
    "C35_transitive",
    "C35_empty_many_not_symmetric"
   ],
   "note": "Also decides an independent notion of equal content; the failure with empty Many lists is exhibited."
  },
  {
   "property": "C36",
   "status": "proved",
   "theorems": [
    "C36_reports_only_cycles",
    "C36_answers",
    "C36_power_of_two_reported",
    "C36_exact_without_sharing"
   ],
   "note": "Reports only cycles, always answers, reports every cycle whose length is a power of two under doubling slices (more generally when the slice is full), and is exact when slices are never shared; for all graphs, map orders and growth functions."
  },
  {
   "property": "C37",
   "status": "partial",
   "theorems": [
    "C37_missed_cycle_refuted"
   ],
   "note": "The expected property is false: refuted with a grammar whose graph is cyclic but which is accepted under some map order, with append doubling as in Go."
  },
  {
   "property": "C38",
   "status": "partial",
   "theorems": [
    "C38_guarded_acyclic",
    "C38_guarded_accepted",
    "C38_hidden_left_recursion_refuted",
    "C38_endless_hangs"
   ],
   "note": "The expected property is false: five accepted grammars whose parses never end, for every amount of fuel. Proved instead: C38_endless_hangs (the general reason), and for guarded texts (GuardSpec) that a graph without cycles, hence acceptance when slices never share their array, implies that every parse ends."
  },
  {
   "property": "C39",
   "status": "proved",
   "theorems": [
    "C39_back_quotes",
    "C39_quotes",
    "C39_meaning"
   ],
   "note": "All three quotes round-trip for every byte string; between quotes the reading is characterised completely (panic outside the table)."
  },
  {
   "property": "C40",
   "status": "partial",
   "theorems": [
    "C40_numeric_refuted",
    "C40_hex_panics",
    "C40_octal_digit_left"
   ],
   "note": "Refuted: \\x, \\u, \\U always panic; octal escapes give their byte and then the last digit again, or panic from \\200 on."
  },
  {
   "property": "C41",
   "status": "partial",
   "theorems": [
    "C41_marks_counted_once",
    "C41_counted_once_is_unique",
    "C41_adds_only_cuts",
    "C41_map_order",
    "C41_only_unique_refuted"
   ],
   "note": "Marks exactly the literals counted once, adds only cut points, map order irrelevant; for grammars without nesting the count is the number of occurrences. Refuted in general: three occurrences can all be marked."
  },
  {
   "property": "C42",
   "status": "partial",
   "theorems": [
    "C42_unparse_inverts",
    "C42_named_trees",
    "C42_writes_leaves",
    "C42_left_lists",
    "C42_right_lists",
    "C42_optional_separators",
    "C42_left_list_refuted",
    "C42_right_list_refuted",
    "C42_leading_refuted",
    "C42_trailing_refuted",
    "C42_token_refuted",
    "C42_name_refuted",
    "C42_nested_refuted",
    "C42_lookahead_refuted",
    "C42_reference_refuted",
    "C42_wrap_refuted"
   ],
   "note": "Proved for every grammar in the class, rule and input, for all large enough fuel; associative lists of two or more and lists with optional separators are proved never to be written. The expected inversion outside the class is refuted with ten concrete grammars."
  },
  {
   "property": "C43",
   "status": "partial",
   "theorems": [
    "C43_grammars_compared",
    "C43_terms_compared",
    "C43_external_references_refuted",
    "C43_defaults_refuted"
   ],
   "note": "Decides equality up to map order, and lists exactly the differing rules, without external references and when the name of a back reference tells whether it has a default. Refuted outside by two witnesses."
  },
  {
   "property": "C44",
   "status": "partial",
   "theorems": [
    "C44_leaves_refuted",
    "C44_shape_refuted",
    "C44_nodes_compared"
   ],
   "note": "Refuted by witnesses (different leaves, leaf against node). Exact meaning of an empty report proved."
  },
  {
   "property": "C45",
   "status": "partial",
   "theorems": [
    "C45_generated",
    "C45_quantifiers",
    "C45_rules",
    "C45_stacks",
    "C45_no_more",
    "C45_quantifiers_refuted",
    "C45_returns_refuted",
    "C45_bytes_refuted"
   ],
   "note": "Proved for grammars in the class, with a reader of Go expressions written separately; the three refutations are the exceptions named in the statement. C45_quantifiers: within the class without its condition on quantifiers, the code is read as a grammar just when all quantifiers are ?, * or +. The class also excludes rules that refer to .wrapRE. go/format, which runs afterwards, is taken to keep tokens. Examples: the shipped wbnfgrammar.go is read as the model's grammar and is reproduced token by token."
  },
  {
   "property": "C46",
   "status": "partial",
   "theorems": [
    "C46_depth_first",
    "C46_tour_unique",
    "C46_hard_abort_stops",
    "C46_aborter_like_exiter",
    "C46_aborter_refuted",
    "C46_token_exit_refuted"
   ],
   "note": "Proved for every tree and callbacks: depth-first order (unique), the children being those the wbnf grammar names, alphabetically; exit requests skip subtrees, stoppers that abort without asking to leave really stop the walk. The expected effect of Aborter is refuted (it behaves like NodeExiter, for all callbacks), and a NodeExiter for a token leaves the node around it."
  },
  {
   "property": "C47",
   "status": "partial",
   "theorems": [
    "C47_lexical_scope_partial",
    "C47_nested_rule_escapes_refuted"
   ],
   "note": "Lexical reading proved for readable grammars; refuted in general by witness."
  },
  {
   "property": "C48",
   "status": "proved",
   "theorems": [
    "C48_braced_regexp",
    "C48_bare_regexp",
    "C48_every_text"
   ],
   "note": "Both spellings of regexp literals, every text."
  },
  {
   "property": "C49",
   "status": "proved",
   "theorems": [
    "C49_text_accepted",
    "C49_check_sound",
    "C49_core_succeeds"
   ],
   "note": "The text of the wbnf grammar is accepted for every runtime behaviour, the start-up comparison passes, and for every grammar for which it passes the result parses exactly like the hand-written one. The engine is the modelled regexp engine."
  },
  {
   "property": "C50",
   "status": "partial",
   "theorems": [
    "C50_terminating_grammar_rejected_refuted"
   ],
   "note": "The expected property is false: an accepted-looking right-recursive grammar whose every parse ends is rejected under every runtime with doubling slices."
  },
  {
   "property": "C51",
   "status": "partial",
   "theorems": [
    "C51_references_defined",
    "C51_definitions_kept",
    "C51_macro_bodies_refuted",
    "C51_nested_grammars_refuted"
   ],
   "note": "Proved for every AST without macros and nested grammars; refuted for texts with macros and with nested grammars (accepted, but the parsers panic on a reference that leads nowhere)."
  },
  {
   "property": "C52",
   "status": "partial",
   "theorems": [
    "C52_regexp_refuted",
    "C52_escape_refuted",
    "C52_at_refuted",
    "C52_inner_stack_refuted",
    "C52_stacked_stack_refuted",
    "C52_nested_in_stack_refuted",
    "C52_bound_refuted",
    "C52_wrap_refuted",
    "C52_compiles",
    "C52_compile_text",
    "C52_text_compiles"
   ],
   "note": "The expected property is false: eight texts that pass validation and make Compile panic under every runtime. Proved instead: an exact characterisation of the grammars that can be compiled (nested grammars without stacks)."
  },
  {
   "property": "C53",
   "status": "partial",
   "theorems": [
    "C53_built_macros_founded",
    "C53_never_ends",
    "C53_recursive_macro_refuted"
   ],
   "note": "Proved: a grammar is only built if the macro calls are well founded, and a general reason for never ending. The expected rejection is refuted with a text that passes validation under every runtime and for which the builder never ends, for every amount of fuel."
  },
  {
   "property": "C54",
   "status": "partial",
   "theorems": [
    "C54_statements",
    "C54_unique",
    "C54_loads",
    "C54_cycles_have_no_result",
    "C54_cycle_refuted",
    "C54_missing_refuted",
    "C54_diamond_refuted",
    "C54_nested_refuted"
   ],
   "note": "Proved for all files, resolvers and texts: which statements are loaded, that they are loaded when nothing is wrong, and that cyclic imports have no result. The expected handling of cycles, missing files, files needed twice and imports in nested grammars is refuted."
  },
  {
   "property": "C55",
   "status": "proved",
   "theorems": [
    "C55_built_as_written",
    "C55_accepted_as_written"
   ],
   "note": "For every AST that reads as a text without macros and nested grammars; grammar equality is exact, including the order of the rules."
  },
  {
   "property": "C56",
   "status": "partial",
   "theorems": [
    "C56_expansion",
    "C56_written",
    "C56_one_way",
    "C56_lookahead_refuted",
    "C56_nested_refuted"
   ],
   "note": "Proved for every body without look-aheads and nested grammars; refuted for look-aheads and nested grammars with accepted texts whose parsers panic."
  },
  {
   "property": "C57",
   "status": "partial",
   "theorems": [
    "C57_layers_uncut",
    "C57_commits_refuted"
   ],
   "note": "Proved for every grammar that compiles: the parsers behave as if the cut points in the layers had not been written. The expected commitment is refuted with a concrete stack and the rules it stands for."
  },
  {
   "property": "C58",
   "status": "proved",
   "theorems": [
    "C58_names_unique",
    "C58_duplicates",
    "C58_faults",
    "C58_accepts"
   ],
   "note": "For every syntax tree for which validation returns; the left recursion check is the one of the model, whose own correctness is C38. What is not looked at (nested grammars, macro bodies) is part of the specification; C51 shows the consequences."
  },
  {
   "property": "C59",
   "status": "partial",
   "theorems": [
    "C59_trees",
    "C59_parsed",
    "C59_rule_separator_refuted",
    "C59_group_separator_refuted",
    "C59_token_refuted"
   ],
   "note": "Proved for every grammar in the class and every parse; rule and group separators and rules named Token are refuted with accepted texts. The example reproduces all types and getters of the shipped wbnfgrammar.go exactly."
  },
  {
   "property": "C60",
   "status": "partial",
   "theorems": [
    "C60_all_given",
    "C60_parsed",
    "C60_name_again_refuted",
    "C60_in_choice_refuted",
    "C60_first_token_refuted",
    "C60_shipped_refuted"
   ],
   "note": "Proved for the repetitions the generator notices; three kinds it misses are refuted with accepted texts, and the shipped RefNode is an instance."
  },
  {
   "property": "C61",
   "status": "partial",
   "theorems": [
    "C61_types_made",
    "C61_external_refuted"
   ],
   "note": "Proved for settled grammars; the expected totality on accepted texts is refuted with an external reference."
  },
  {
   "property": "C62",
   "status": "partial",
   "theorems": [
    "C62_results_declared",
    "C62_nested_refuted",
    "C62_underscore_refuted",
    "C62_external_refuted"
   ],
   "note": "Proved for named references to outermost rules with stable Go names; refuted for nested grammars, underscore names and named external references with accepted texts."
  },
  {
   "property": "C63",
   "status": "partial",
   "theorems": [
    "C63_declared_once",
    "C63_token_refuted",
    "C63_names_refuted",
    "C63_back_refuted",
    "C63_stack_refuted"
   ],
   "note": "Proved for grammars without back references and @ whose names stay different in Go; the four exceptions are refuted with accepted texts."
  },
  {
   "property": "C64",
   "status": "partial",
   "theorems": [
    "C64_calls_declared",
    "C64_nodes_called",
    "C64_walked_exist",
    "C64_children_visited",
    "C64_stack_refuted",
    "C64_token_refuted",
    "C64_in_choice_refuted"
   ],
   "note": "Proved for grammars in the class and every parse; stacks with named layers, nodes that share a name with a token, and repetitions the generator does not notice are refuted with accepted texts. The example shows that the model generates exactly the walk functions of the shipped wbnfgrammar.go."
  },
  {
   "property": "C65",
   "status": "proved",
   "theorems": [
    "C65_parsed",
    "C65_trees",
    "C65_only_one"
   ],
   "note": "For compiled grammars in the class of C31 and C12; the parts of a tree are specified by a relation on terms and trees that does not mention the conversion."
  },
  {
   "property": "C66",
   "status": "partial",
   "theorems": [
    "C66_nodes",
    "C66_texts",
    "C66_parsed_texts",
    "C66_string",
    "C66_choice",
    "C66_one_token_refuted",
    "C66_one_token_panics_refuted",
    "C66_mixed_refuted"
   ],
   "note": "Proved for names that only tokens or only references have; OneToken on nodes without tokens and mixed names are refuted with accepted texts."
  },
  {
   "property": "C67",
   "status": "partial",
   "theorems": [
    "C67_references",
    "C67_named",
    "C67_named_refuted"
   ],
   "note": "Proved for plain references; refuted with an accepted text for references with a name, where the general form of the returned node is proved."
  },
  {
   "property": "C68",
   "status": "proved",
   "theorems": [
    "C68_says_no_more",
    "C68_accepts_what_it_says",
    "C68_decides"
   ],
   "note": "The text is given by its AST and read as a textbook PEG (FordSpec). Exactness needs the text to be predictive (PredictSpec, one byte of look-ahead); without that C21 refutes it. Cut point numbers are taken to be distinct."
  },
  {
   "property": "C69",
   "status": "partial",
   "theorems": [
    "C69_print",
    "C69_injective",
    "C69_injective_refuted"
   ],
   "note": "Trees are finite values (no sharing, no cycles through AddTree). Print equals the drawing for every growth of slices; injective on tidy trees; refuted for texts with lines that imitate items."
  },
  {
   "property": "C70",
   "status": "proved",
   "theorems": [
    "C70_ends",
    "C70_labels"
   ],
   "note": "fmt's %q and the %v of Extra data are parameters; map order and sort.Slice are any permutation / any sorted permutation."
  },
  {
   "property": "C71",
   "status": "partial",
   "theorems": [
    "C71_order",
    "C71_parsed",
    "C71_tags_refuted",
    "C71_hollow_refuted",
    "C71_empty_refuted"
   ],
   "note": "Positive theorems for settled ASTs with @-names skipped, and for parsed texts; three refutations show that each condition matters (@-names shown, hollow branches, empty leaves)."
  },
  {
   "property": "C72",
   "status": "partial",
   "theorems": [
    "C72_escape",
    "C72_panics",
    "C72_order",
    "C72_rest_refuted"
   ],
   "note": "Proved for every map of externals and every order; that the whole rest of the name is the closing pattern is refuted by witness."
  },
  {
   "property": "C73",
   "status": "partial",
   "theorems": [
    "C73_takes_over",
    "C73_answers",
    "C73_whole_rule",
    "C73_no_opening",
    "C73_first_item_refuted",
    "C73_repetition_refuted",
    "C73_look_ahead_refuted"
   ],
   "note": "Proved for every parser, scope and input; that an escape stands for an item of a list or repetition, and that look-aheads consume nothing, is refuted by witnesses."
  },
  {
   "property": "C74",
   "status": "partial",
   "theorems": [
    "C74_faithful",
    "C74_order",
    "C74_total",
    "C74_names_refuted",
    "C74_data_refuted"
   ],
   "note": "Faithfulness, independence of map order and totality proved for every tree with clear names and data; fmt's %q is a parameter with three assumed facts. Refuted by witnesses for the empty name and for data that look like trees."
  },
  {
   "property": "C75",
   "status": "proved",
   "theorems": [
    "C75_any_layout",
    "C75_built",
    "C75_same",
    "C75_unambiguous"
   ],
   "note": "For texts without macros, imports and nested grammars, and regular expressions in the shapes of LayoutSpec (class ranges without brackets, no counted repetition outside braces); that every such text loads is proved with fuel and random numbers quantified, that it passes validation is the subject of C50 to C58."
  },
  {
   "property": "C76",
   "status": "partial",
   "theorems": [
    "C76_block_comments_unread",
    "C76_short_comments",
    "C76_block_comments_refuted"
   ],
   "note": "Refuted by the comment of README.md; the general theorem says exactly which comments at the beginning of a text are read."
  },
  {
   "property": "C77",
   "status": "partial",
   "theorems": [
    "C77_read_back",
    "C77_built",
    "C77_faithful",
    "C77_quoted_strings",
    "C77_control_characters_refuted",
    "C77_single_rule_unread",
    "C77_unreadable_refuted",
    "C77_misread_refuted",
    "C77_faithful_refuted"
   ],
   "note": "Read back and faithfulness proved for plain grammars (PrintSpec); refuted by witnesses built from texts for the other shapes. strconv.Quote is modelled for ASCII; other characters go through the parameter."
  },
  {
   "property": "C78",
   "status": "proved",
   "theorems": [
    "C78_last_semicolon",
    "C78_semicolon_added"
   ],
   "note": "For the texts of C75 whose last production lacks its semicolon."
  },
  {
   "property": "C79",
   "status": "partial",
   "theorems": [
    "C79_clean",
    "C79_clean_canonical",
    "C79_join",
    "C79_top",
    "C79_nested",
    "C79_nested_never_loads",
    "C79_nested_up",
    "C79_nested_refuted",
    "C79_elsewhere_refuted"
   ],
   "note": "Where the paths lead is proved for all paths and working directories (links of the file system aside; path/filepath for Unix by its documentation). That an imported file can import its sibling is refuted: it never loads if no file lies below another and the grammar file is given without a directory."
  },
  {
   "property": "C80",
   "status": "partial",
   "theorems": [
    "C80_drop_caps",
    "C80_no_runs",
    "C80_kept",
    "C80_kept_refuted",
    "C80_type_names",
    "C80_exported_refuted"
   ],
   "note": "Proved for ASCII names; refuted for others, and for names that end with Node. strcase.ToCamel is a parameter of the general theorems and its model for identifiers is used in the witnesses."
  },
  {
   "property": "C81",
   "status": "partial",
   "theorems": [
    "C81_untouched",
    "C81_only_wrap",
    "C81_nested",
    "C81_settles",
    "C81_again",
    "C81_refuted"
   ],
   "note": "Which grammars are left alone, what changes in the others, and that compiling again parses the same are proved; that every grammar is left alone is refuted by a nested grammar that keeps the .wrapRE of the grammar it was first compiled in. The .wrapRE written is taken as it was at the start of the compilation."
  },
  {
   "property": "C82",
   "status": "partial",
   "theorems": [
    "C82_quoted",
    "C82_parsed",
    "C82_plain",
    "C82_alike",
    "C82_total",
    "C82_normalize",
    "C82_refuted"
   ],
   "note": "Proved for %q, for trees from parsing too (grammars without stacks, as for C12), and for %v and %s with leaf texts that do not look like the rest; that %v tells the trees of one grammar apart is refuted. Trees with ASTs attached by externals are modelled but left out of the theorems that tell trees apart. Other verbs are not modelled."
  },
  {
   "property": "C83",
   "status": "partial",
   "theorems": [
    "C83_explains",
    "C83_own",
    "C83_prints",
    "C83_readable",
    "C83_undemanding",
    "C83_repetition",
    "C83_grammars",
    "C83_reasons",
    "C83_choice",
    "C83_sequence",
    "C83_names",
    "C83_actual",
    "C83_actual_refuted",
    "C83_prints_refuted"
   ],
   "note": "When reports print, that those of grammars without demanding repetitions do (stacks resolved and no nested stacks), what printed ones name, that reports go down to the tokens not found and name all options of a choice, and that the text shown never starts too late are proved; that every error prints and that the text shown is the one found are refuted. Endless printing is shown as divergence for every fuel. The stack of calls, the errors of externals and the frame that Context draws are parameters."
  },
  {
   "property": "C84",
   "status": "partial",
   "theorems": [
    "C84_kinds",
    "C84_texts",
    "C84_duplicates",
    "C84_routes",
    "C84_routes_refuted",
    "C84_place_refuted"
   ],
   "note": "That the list of messages is exactly that of the faults, with tokens and offsets, the message about rules defined again and the routes when appends copy are proved; that routes are real with the growth of Go slices and that every message tells its place are refuted. Hypotheses: tokens are not empty and names have no %, as is so for the tokens of grammar texts (not derived here). fmt is modelled for %s, %d and %%; the text of a regexp error is a parameter. A macro call without name panics, as in Go."
  },
  {
   "property": "C85",
   "status": "partial",
   "theorems": [
    "C85_decides",
    "C85_shows",
    "C85_rest",
    "C85_grammars",
    "C85_syntax_errors",
    "C85_imports",
    "C85_gen",
    "C85_passes_refuted",
    "C85_message_refuted",
    "C85_written_refuted",
    "C85_start_refuted"
   ],
   "note": "The exit code of test, what it shows and its use on grammars are proved, for the modelled commands: what is shown is kept as the value printed, the log and the parsing of the command line are left out, the files are a parameter. That it is 0 for every text of the grammar, that a syntax error gets a message and that gen says when it failed are refuted. The text that gen writes is a parameter."
  },
  {
   "property": "C86",
   "status": "partial",
   "theorems": [
    "C86_decides",
    "C86_equal",
    "C86_failures",
    "C86_report",
    "C86_itself_refuted"
   ],
   "note": "What AssertEqualNodes decides and reports and what the report of NodeDiff lists are proved; that a tree equals itself is refuted. Messages are values with path and contents, not texts; DeepEqual on attached ASTs is a parameter."
  },
  {
   "property": "C87",
   "status": "partial",
   "theorems": [
    "C87_text",
    "C87_once",
    "C87_shipped",
    "C87_digit_refuted"
   ],
   "note": "That the text declares the types and methods of the model and that the methods compute the answers of the model is proved for names that Go can spell, and for the shipped source; that all accepted grammars have such names is refuted. The part of Go that is used is read and run by a small specification of its own (GoText); go/format is left out."
  },
  {
   "property": "C88",
   "status": "partial",
   "theorems": [
    "C88_exactly",
    "C88_grammars",
    "C88_shipped",
    "C88_missing_refuted",
    "C88_twice_refuted"
   ],
   "note": "When Go accepts the types, and that it does for settled grammars and for the shipped source, is proved with typing rules of its own for the part of Go that occurs (GoTyping); that it does for every accepted grammar is refuted. Only the types and their methods are checked, not the walkers and functions around them."
  },
  {
   "property": "C89",
   "status": "proved",
   "theorems": [
    "C89_walk_functions",
    "C89_once",
    "C89_shipped",
    "C89_walker"
   ],
   "note": "For names that Go can spell; C89_walker joins the shipped functions with the model of the walker used by the other properties. The part of Go that is used is read and run by a small specification of its own (GoWalk); go/format is left out."
  },
  {
   "property": "C90",
   "status": "proved",
   "theorems": [
    "C90_walker",
    "C90_once",
    "C90_walk_written",
    "C90_shipped"
   ],
   "note": "For names that Go can spell. The reader is that of C89 (GoWalk); a type switch takes the first case with the name of the type. go/format is left out."
  },
  {
   "property": "C91",
   "status": "partial",
   "theorems": [
    "C91_names",
    "C91_never_constants",
    "C91_constants_refuted"
   ],
   "note": "For trees in which the text of each name can be read (the run does not panic). C91_never_constants holds for every grammar with a name; C91_constants_refuted gives one. Constants in Go are read with the tokens of GoText."
  }
 ]
}