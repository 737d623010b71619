{
 "claims": [
  {
   "property": "C01",
   "status": "proved",
   "theorems": [
    "C01_parse_soundness"
   ],
   "note": ""
  },
  {
   "property": "C02",
   "status": "proved",
   "theorems": [
    "C02_parse_completeness"
   ],
   "note": ""
  },
  {
   "property": "C03",
   "status": "proved",
   "theorems": [
    "C03_recognition",
    "C03_rejection",
    "C03_any_start"
   ],
   "note": ""
  },
  {
   "property": "C04",
   "status": "proved",
   "theorems": [
    "C04_no_duplicates",
    "C04_copies",
    "C04_copies_reached",
    "C04_copies_all"
   ],
   "note": ""
  },
  {
   "property": "C05",
   "status": "proved",
   "theorems": [
    "C05_enumeration_ends",
    "C05_every_next_returns",
    "C05_cyclic_refuted"
   ],
   "note": "Proved for all non-cyclic grammars; the unrestricted claim is false (C05_cyclic_refuted gives a valid cyclic grammar whose first next() never returns). C47 characterizes termination exactly."
  },
  {
   "property": "C06",
   "status": "proved",
   "theorems": [
    "C06_exhaustion_final",
    "C06_exhaustive"
   ],
   "note": ""
  },
  {
   "property": "C07",
   "status": "proved",
   "theorems": [
    "C07_inside",
    "C07_next_never_panics",
    "C07_opening_never_panics",
    "C07_deprecated_opening"
   ],
   "note": ""
  },
  {
   "property": "C08",
   "status": "proved",
   "theorems": [
    "C08_order_same_set",
    "C08_order_permutes"
   ],
   "note": ""
  },
  {
   "property": "C09",
   "status": "proved",
   "theorems": [
    "C09_api_parity",
    "C09_default_start"
   ],
   "note": ""
  },
  {
   "property": "C10",
   "status": "proved",
   "theorems": [
    "C10_interleaving"
   ],
   "note": ""
  },
  {
   "property": "C11",
   "status": "proved",
   "theorems": [
    "C11_unknown_start"
   ],
   "note": ""
  },
  {
   "property": "C12",
   "status": "proved",
   "theorems": [
    "C12_inside",
    "C12_inside_no_clamping",
    "C12_char_boundaries",
    "C12_no_clamping"
   ],
   "note": ""
  },
  {
   "property": "C13",
   "status": "proved",
   "theorems": [
    "C13_validate"
   ],
   "note": ""
  },
  {
   "property": "C14",
   "status": "proved",
   "theorems": [
    "C14_build_parser"
   ],
   "note": ""
  },
  {
   "property": "C15",
   "status": "proved",
   "theorems": [
    "C15_agreement",
    "C15_build_implies_validate",
    "C15_agreement_refuted"
   ],
   "note": "Proved when every production has an alternative; the unrestricted claim is refuted with a witness."
  },
  {
   "property": "C16",
   "status": "proved",
   "theorems": [
    "C16_generated_sentences"
   ],
   "note": ""
  },
  {
   "property": "C17",
   "status": "proved",
   "theorems": [
    "C17_generate_then_parse"
   ],
   "note": ""
  },
  {
   "property": "C18",
   "status": "proved",
   "theorems": [
    "C18_callback_approves",
    "C18_pure_callback"
   ],
   "note": "Stated for an instrumented run that logs approved callback calls, and separately for pure callbacks."
  },
  {
   "property": "C19",
   "status": "proved",
   "theorems": [
    "C19_guard_ends",
    "C19_guard_decides",
    "C19_guard_message"
   ],
   "note": ""
  },
  {
   "property": "C20",
   "status": "proved",
   "theorems": [
    "C20_guard_safe",
    "C20_guard_safe_refuted",
    "C20_lone_epsilon_refuted"
   ],
   "note": "Proved with distinct left hand sides and no production with a single empty alternative; both restrictions are necessary (two refutations)."
  },
  {
   "property": "C21",
   "status": "proved",
   "theorems": [
    "C21_more_time",
    "C21_reproducible"
   ],
   "note": ""
  },
  {
   "property": "C22",
   "status": "proved",
   "theorems": [
    "C22_no_choice_refuted",
    "C22_random_walk",
    "C22_depth_bounded",
    "C22_coverage_guided",
    "C22_weighted",
    "C22_weighted_overflow_refuted",
    "C22_generation_no_panic"
   ],
   "note": "Weighted needs the weights' sum to fit u32 when overflow checks are on; refuted otherwise."
  },
  {
   "property": "C23",
   "status": "proved",
   "theorems": [
    "C23_terminals_at_depth",
    "C23_generation_bounded",
    "C23_termination_refuted"
   ],
   "note": "The guarantee is proved when every production has an all-terminal alternative; refuted without."
  },
  {
   "property": "C24",
   "status": "proved",
   "theorems": [
    "C24_coverage",
    "C24_address_reuse_refuted"
   ],
   "note": "Proved per production address; refuted when an address is reused by another grammar."
  },
  {
   "property": "C25",
   "status": "proved",
   "theorems": [
    "C25_weights",
    "C25_proportional",
    "C25_zero_total",
    "C25_overflow_refuted"
   ],
   "note": "Proved when the sum fits u32; refuted on overflow."
  },
  {
   "property": "C26",
   "status": "proved",
   "theorems": [
    "C26_every_sentence",
    "C26_every_sentence_refuted"
   ],
   "note": "Proved with distinct left hand sides and no lone empty alternative; refuted otherwise."
  },
  {
   "property": "C27",
   "status": "proved",
   "theorems": [
    "C27_term_round_trip"
   ],
   "note": "is_alphabetic is an arbitrary function that is false on white space and on ASCII non-letters (alphabetic_ok)"
  },
  {
   "property": "C28",
   "status": "proved",
   "theorems": [
    "C28_expression_round_trip"
   ],
   "note": ""
  },
  {
   "property": "C29",
   "status": "proved",
   "theorems": [
    "C29_production_round_trip"
   ],
   "note": ""
  },
  {
   "property": "C30",
   "status": "proved",
   "theorems": [
    "C30_grammar_round_trip",
    "C30_grammar_round_trip_bnf"
   ],
   "note": ""
  },
  {
   "property": "C31",
   "status": "proved",
   "theorems": [
    "C31_bnf_survives",
    "C31_abnf_survives",
    "C31_abnf_refuted"
   ],
   "note": "true for BNF; for ABNF exactly when no name contains '>' (C31_abnf_survives), counterexample in C31_abnf_refuted"
  },
  {
   "property": "C32",
   "status": "proved",
   "theorems": [
    "C32_grammar_text",
    "C32_parse_from",
    "C32_white_space",
    "C32_unambiguous",
    "C32_layout_irrelevant",
    "C32_term_text",
    "C32_expression_text",
    "C32_production_text",
    "C32_layout_after_bracket_refuted"
   ],
   "note": "exact: the parser accepts a text iff it is a text of the notation; layout directly after '(' or '[' is not part of the notation (C32_layout_after_bracket_refuted)"
  },
  {
   "property": "C33",
   "status": "proved",
   "theorems": [
    "C33_total",
    "C33_whole_text"
   ],
   "note": "stack overflow on deep nesting is outside the model"
  },
  {
   "property": "C34",
   "status": "proved",
   "theorems": [
    "C34_paths_agree",
    "C34_path_not_observable"
   ],
   "note": ""
  },
  {
   "property": "C35",
   "status": "proved",
   "theorems": [
    "C35_detection",
    "C35_detection_right",
    "C35_display_is_bnf"
   ],
   "note": ""
  },
  {
   "property": "C36",
   "status": "proved",
   "theorems": [
    "C36_bnf_writable",
    "C36_well_formed"
   ],
   "note": ""
  },
  {
   "property": "C37",
   "status": "proved",
   "theorems": [
    "C37_same_language",
    "C37_text_language",
    "C37_text_to_parses",
    "C37_nothing_lost"
   ],
   "note": "hypothesis no_capture: a used name is defined or not of the form __anonK; C38_reference_capture_refuted shows it is needed"
  },
  {
   "property": "C38",
   "status": "proved",
   "theorems": [
    "C38_names_fresh",
    "C38_reference_capture_refuted"
   ],
   "note": "holds against left hand sides; fails for names that are only referenced (C38_reference_capture_refuted)"
  },
  {
   "property": "C39",
   "status": "proved",
   "theorems": [
    "C39_structure",
    "C39_names_and_counts",
    "C39_starting_rule",
    "C39_plain_unchanged"
   ],
   "note": ""
  },
  {
   "property": "C40",
   "status": "proved",
   "theorems": [
    "C40_tree_display"
   ],
   "note": ""
  },
  {
   "property": "C41",
   "status": "proved",
   "theorems": [
    "C41_mermaid",
    "C41_targets",
    "C41_numbers"
   ],
   "note": ""
  },
  {
   "property": "C42",
   "status": "proved",
   "theorems": [
    "C42_reversible",
    "C42_decoding_unique",
    "C42_distinct",
    "C42_safe",
    "C42_others_unchanged"
   ],
   "note": ""
  },
  {
   "property": "C43",
   "status": "proved",
   "theorems": [
    "C43_no_panic",
    "C43_terminal_lhs_refuted"
   ],
   "note": "Proved when every left hand side is a nonterminal (always so for parsed text); refuted for a hand-built grammar with a terminal on the left."
  },
  {
   "property": "C44",
   "status": "proved",
   "theorems": [
    "C44_add",
    "C44_remove_term",
    "C44_remove_from_rhs",
    "C44_remove_production",
    "C44_order_refuted"
   ],
   "note": "Exact results proved; that remove_production keeps the order (and the starting rule) is refuted: the last production takes the removed one's place."
  },
  {
   "property": "C45",
   "status": "proved",
   "theorems": [
    "C45_operators"
   ],
   "note": ""
  },
  {
   "property": "C46",
   "status": "proved",
   "theorems": [
    "C46_expression",
    "C46_production",
    "C46_production_two",
    "C46_grammar",
    "C46_accepted",
    "C46_production_refuted",
    "C46_grammar_refuted"
   ],
   "note": "expression! proved; the exact results of production! and grammar! proved, and that they equal what is written is refuted (alternatives and rules are reordered)."
  },
  {
   "property": "C47",
   "status": "proved",
   "theorems": [
    "C47_ends_iff",
    "C47_every_next_returns",
    "C47_endless",
    "C47_stuck",
    "C47_cycle_in_parse_is_live"
   ],
   "note": "Full characterization; the three cases (ends, endless, stuck) are separate theorems."
  },
  {
   "property": "C48",
   "status": "proved",
   "theorems": [
    "C48_quadratic"
   ],
   "note": "Proved for uniquely matching grammars; C49 shows that the hypothesis is needed."
  },
  {
   "property": "C49",
   "status": "proved",
   "theorems": [
    "C49_polynomial_refuted"
   ],
   "note": "The claim is false; refuted by an explicit grammar for every n."
  },
  {
   "property": "C50",
   "status": "proved",
   "theorems": [
    "C50_inside",
    "C50_vectors_sorted",
    "C50_binary_search"
   ],
   "note": "Exact."
  },
  {
   "property": "C51",
   "status": "proved",
   "theorems": [
    "C51_random_walk",
    "C51_depth_bounded",
    "C51_coverage_guided"
   ],
   "note": "Uniformity is relative to the draw being uniform; the random number generator is an arbitrary stream."
  },
  {
   "property": "C52",
   "status": "proved",
   "theorems": [
    "C52_language",
    "C52_levels_with_callback",
    "C52_length",
    "C52_length_reached"
   ],
   "note": "Grammars in which every production has an alternative without nonterminals; without this hypothesis see C23."
  },
  {
   "property": "C53",
   "status": "proved",
   "theorems": [
    "C53_no_error"
   ],
   "note": ""
  },
  {
   "property": "C54",
   "status": "proved",
   "theorems": [
    "C54_closed_form",
    "C54_usual_names"
   ],
   "note": "The numbering function is shown to exist and to be unique."
  },
  {
   "property": "C55",
   "status": "proved",
   "theorems": [
    "C55_undefined_nonterminal",
    "C55_brackets_refuted",
    "C55_error_refuted"
   ],
   "note": "The README's claim is refuted twice; the actual behaviour is proved."
  },
  {
   "property": "C56",
   "status": "proved",
   "theorems": [
    "C56_concatenation",
    "C56_semicolon_line",
    "C56_semicolon_refuted",
    "C56_abnf_semicolon_refuted"
   ],
   "note": "Proved for line breaks and for ';' at line ends in BNF; the README's reading and ABNF are refuted."
  },
  {
   "property": "C57",
   "status": "proved",
   "theorems": [
    "C57_alternatives",
    "C57_multiplicity",
    "C57_split",
    "C57_generation_refuted"
   ],
   "note": "Parsing: proved with and without multiplicities; the analogous claim about generation is refuted."
  },
  {
   "property": "C58",
   "status": "proved",
   "theorems": [
    "C58_endless_generation_refuted"
   ],
   "note": "The claim is false; refuted with a quantitative bound."
  },
  {
   "property": "C59",
   "status": "proved",
   "theorems": [
    "C59_tree_display_injective",
    "C59_line_breaks_refuted"
   ],
   "note": "Proved for labels without line breaks; refuted without the condition."
  },
  {
   "property": "C60",
   "status": "proved",
   "theorems": [
    "C60_mermaid_determines",
    "C60_mermaid_refuted"
   ],
   "note": "Proved for trees with at least two nodes; the two losses of information are refuted claims."
  },
  {
   "property": "C61",
   "status": "proved",
   "theorems": [
    "C61_terms",
    "C61_writable",
    "C61_not_injective_refuted"
   ],
   "note": "Terms unconditionally; the others for what BNF can write, refuted otherwise."
  },
  {
   "property": "C62",
   "status": "proved",
   "theorems": [
    "C62_dialogue",
    "C62_every_dialogue"
   ],
   "note": "Both directions: every run is a dialogue, every dialogue is a run."
  },
  {
   "property": "C63",
   "status": "proved",
   "theorems": [
    "C63_debug_assert",
    "C63_debug_lawful",
    "C63_debug_same",
    "C63_shipped"
   ],
   "note": "The assertion compares addresses, the model contents."
  },
  {
   "property": "C64",
   "status": "proved",
   "theorems": [
    "C64_work_so_far",
    "C64_work_exact",
    "C64_numbered_so_far",
    "C64_numbered_exact",
    "C64_order_irrelevant"
   ],
   "note": ""
  },
  {
   "property": "C65",
   "status": "proved",
   "theorems": [
    "C65_same_outcome",
    "C65_reports_grammar",
    "C65_reports_items",
    "C65_shown",
    "C65_display",
    "C65_eof",
    "C65_reaches"
   ],
   "note": "str's Debug (escapes) is an arbitrary function; the behaviour of nom's combinators on errors is as documented in TextErrors.v."
  },
  {
   "property": "C66",
   "status": "proved",
   "theorems": [
    "C66_same_calls",
    "C66_same_trees",
    "C66_reachable_rules_only",
    "C66_unreachable_rules",
    "C66_exchange_rules",
    "C66_renaming"
   ],
   "note": "Both iterators are assumed to open (build_parser may reject one of the grammars for undefined names in unreachable rules)."
  },
  {
   "property": "C67",
   "status": "proved",
   "theorems": [
    "C67_byte_order",
    "C67_term_order",
    "C67_expression_order"
   ],
   "note": "What derive(Ord) and the standard library's orders do is modelled in Order.v as documented."
  },
  {
   "property": "C68",
   "status": "proved",
   "theorems": [
    "C68_len",
    "C68_eq",
    "C68_starts_with",
    "C68_get_from"
   ],
   "note": "The byte operations are modelled in Utf8.v as the core library documents them."
  },
  {
   "property": "C69",
   "status": "proved",
   "theorems": [
    "C69_grammar",
    "C69_notation",
    "C69_items",
    "C69_lower",
    "C69_unclosed",
    "C69_names"
   ],
   "note": "Counts are in the parsers of TextCost.v, which return what the parsers of Text.v return; the work of nom per character is taken as constant, copying of matched text and the traversal by normalization are not counted."
  },
  {
   "property": "C70",
   "status": "proved",
   "theorems": [
    "C70_coverage",
    "C70_tour_taken",
    "C70_one_tour",
    "C70_tour_share",
    "C70_coverage_probability",
    "C70_random_walk",
    "C70_depth_bounded",
    "C70_weighted",
    "C70_one_walk",
    "C70_scripts",
    "C70_share",
    "C70_random_walk_probability",
    "C70_depth_bounded_probability",
    "C70_weighted_probability"
   ],
   "note": "Random numbers are counted below a common multiple of the numbers of alternatives and reduced modulo the number of alternatives, which makes every draw uniform. CoverageGuided, whose choices depend on its history, is covered by C24 and C51 only."
  },
  {
   "property": "C71",
   "status": "proved",
   "theorems": [
    "C71_round_trip",
    "C71_values"
   ],
   "note": "The code that serde's derive macros generate and serde_json's handling of it are modelled from their documentation (external code); error contents are left out."
  },
  {
   "property": "C72",
   "status": "proved",
   "theorems": [
    "C72_reads",
    "C72_grammars",
    "C72_round_trip",
    "C72_written",
    "C72_escapes"
   ],
   "note": "serde_json is external code, modelled from its documentation. Its one-pass reading is modelled as reading a tree first; numbers are kept as text, and an unpaired surrogate escape makes a string unusable but is accepted in skipped values."
  },
  {
   "property": "C73",
   "status": "proved",
   "theorems": [
    "C73_strings",
    "C73_shows",
    "C73_one_line",
    "C73_trees",
    "C73_message",
    "C73_ranges",
    "C73_any_range"
   ],
   "note": "The code of derive(Debug) and the core library's escapes are modelled from their documentation; which characters are printable is arbitrary. Debug output of internal types other than InputRange is not modelled."
  },
  {
   "property": "C74",
   "status": "proved",
   "theorems": [
    "C74_text_limit",
    "C74_text_same",
    "C74_text_exact",
    "C74_text_unbounded",
    "C74_trees",
    "C74_trees_bounded",
    "C74_trees_linear",
    "C74_generation_same",
    "C74_generation_bounded"
   ],
   "note": "One unit of depth is one round of mutually recursive functions. Bytes of stack per call, and the recursions over a finished value (lowering of groups, formatting and dropping of trees), which are as deep as that value, are not counted."
  },
  {
   "property": "C75",
   "status": "proved",
   "theorems": [
    "C75_fixtures",
    "C75_language",
    "C75_accepted",
    "C75_generated",
    "C75_all_generated",
    "C75_no_error",
    "C75_recognized",
    "C75_displayed",
    "C75_self_description_refuted"
   ],
   "note": "The language of the fixture is stated by inductive definitions on texts and grammars that do not mention it. The fixture texts are copied into the model; reading them is computed with an is_alphabetic that knows ASCII letters."
  },
  {
   "property": "C76",
   "status": "proved",
   "theorems": [
    "C76_round_trips",
    "C76_values",
    "C76_ranges",
    "C76_nested_range",
    "C76_order",
    "C76_reusable",
    "C76_undefined",
    "C76_catches",
    "C76_check",
    "C76_empty",
    "C76_sentences",
    "C76_truncated_refuted",
    "C76_mermaid",
    "C76_mermaid_checks",
    "C76_pieces",
    "C76_single_node",
    "C76_unescape",
    "C76_decoder"
   ],
   "note": "The source of random values is arbitrary, so the statements cover every value a generator can return. Shrinking, and the discarding of cases, are not modelled: the properties hold without them. tests/grammar.rs is the subject of C75."
  },
  {
   "property": "C77",
   "status": "proved",
   "theorems": [
    "C77_ends",
    "C77_strategies",
    "C77_endless",
    "C77_letters"
   ],
   "note": "Endlessness is running out of every amount of fuel; stack overflow of the real program is not modelled. The source of the endless run repeats a finite list of draws, which a real generator need not do."
  },
  {
   "property": "C78",
   "status": "proved",
   "theorems": [
    "C78_groups",
    "C78_depth_bounded",
    "C78_coverage",
    "C78_abc",
    "C78_letters",
    "C78_subtract",
    "C78_subtract_refuted",
    "C78_average_refuted"
   ],
   "note": "The grammar texts are copied from the tests and read by the model. The averages are those of the test; the sources that refute two assertions are lists of draws within range, unlikely ones for a real generator."
  },
  {
   "property": "C79",
   "status": "proved",
   "theorems": [
    "C79_causes",
    "C79_first",
    "C79_refusal",
    "C79_dead_ends",
    "C79_strategies"
   ],
   "note": "For the error of a production without choosable alternatives only the cause is proved here; that such a production fails when it comes first is C20."
  },
  {
   "property": "C80",
   "status": "proved",
   "theorems": [
    "C80_access",
    "C80_right_hand_terms",
    "C80_calls",
    "C80_loop",
    "C80_tree",
    "C80_rewrite",
    "C80_trees",
    "C80_validation",
    "C80_generation",
    "C80_strategies"
   ],
   "note": "A mutable loop is modelled by a body that returns the element it leaves and whether to go on; references kept beyond one step of the loop are not modelled."
  },
  {
   "property": "C81",
   "status": "proved",
   "theorems": [
    "C81_choices",
    "C81_unavoidable",
    "C81_flat",
    "C81_explores_refuted"
   ],
   "note": "The generator of random numbers is any function (StdRng is not modelled), so the refuted theorem exhibits one sequence of draws; with a fair source the missing sentence would appear eventually. Choices are counted per production of the grammar at its position, as the code counts them per address of the left-hand side; the grammar is not moved between the runs."
  },
  {
   "property": "C82",
   "status": "proved",
   "theorems": [
    "C82_scan",
    "C82_groups",
    "C82_comment_refuted",
    "C82_name_refuted",
    "C82_missed_refuted",
    "C82_fast_path"
   ],
   "note": "The two scans for '(' and '[' before the loop are those of str::contains. What is chosen cannot be observed in the result (C34); the fast parser only saves time."
  },
  {
   "property": "C83",
   "status": "proved",
   "theorems": [
    "C83_one_tree",
    "C83_linear",
    "C83_repeated_refuted",
    "C83_polish",
    "C83_dna_trees",
    "C83_dna_run",
    "C83_dna_work"
   ],
   "note": "Linear bound and uniqueness for epsilon-free LL(1) grammars; the quadratic lower bound is for README's DNA grammar."
  },
  {
   "property": "C84",
   "status": "proved",
   "theorems": [
    "C84_quadratic",
    "C84_square_attained",
    "C84_unambiguous_alone_refuted",
    "C84_repeated_refuted"
   ],
   "note": "C48 with a condition on the language instead of the rules. The bound without the condition on useless nonterminals is refuted."
  },
  {
   "property": "C85",
   "status": "proved",
   "theorems": [
    "C85_random_walk",
    "C85_depth_bounded",
    "C85_weighted",
    "C85_probability_one"
   ],
   "note": "The estimate is a sufficient condition; it is not necessary for ending with probability one (only for a finite average). A draw from m values is taken as a remainder modulo m of equally likely numbers, as in C70."
  },
  {
   "property": "C86",
   "status": "proved",
   "theorems": [
    "C86_infinite_average",
    "C86_probability_one",
    "C86_no_estimate"
   ],
   "note": "About the one grammar of the benchmarks. A draw from m values is taken as a remainder modulo m of equally likely numbers, as in C70 and C85. The model has no stack depth or memory limit."
  },
  {
   "property": "C87",
   "status": "proved",
   "theorems": [
    "C87_random_walk",
    "C87_weighted",
    "C87_weights_exist",
    "C87_indirect_refuted",
    "C87_default_weights_refuted"
   ],
   "note": "The two refuted claims are counterexamples to generalizations of the positive theorems (not documented promises of the crate). A draw from m values is taken as a remainder modulo m of equally likely numbers, as in C70 and C85."
  },
  {
   "property": "C88",
   "status": "proved",
   "theorems": [
    "C88_average",
    "C88_all_seen"
   ],
   "note": "The estimate must not depend on the depth. A draw from m values is taken as a remainder modulo m of equally likely numbers, as in C70 and C85; while unseen alternatives remain, the bound holds however they are drawn."
  },
  {
   "property": "C89",
   "status": "proved",
   "theorems": [
    "C89_order",
    "C89_shortcut",
    "C89_first",
    "C89_first_height",
    "C89_preference",
    "C89_shallow_first_refuted"
   ],
   "note": "Heights are bounded for the first tree only; later trees of a cyclic grammar have no common bound. With duplicate alternatives the same tree is returned several times and the exchange claim is not stated."
  },
  {
   "property": "C90",
   "status": "proved",
   "theorems": [
    "C90_exchange",
    "C90_trees",
    "C90_parses",
    "C90_steps"
   ],
   "note": "Trees found in the same round are ordered by C89 only through exchanges."
  },
  {
   "property": "C91",
   "status": "proved",
   "theorems": [
    "C91_first",
    "C91_left",
    "C91_found",
    "C91_rounds",
    "C91_rotation_refuted",
    "C91_count",
    "C91_catalan",
    "C91_none"
   ],
   "note": "Operands and operators of one character; bracketings with the same number of rounds are not compared beyond C89."
  },
  {
   "property": "C92",
   "status": "proved",
   "theorems": [
    "C92_same",
    "C92_cost",
    "C92_bound",
    "C92_polynomial_refuted"
   ],
   "note": "Counts the calls of TraversalTree::get made by parse_tree; hash map and arena operations are taken as one step."
  },
  {
   "property": "C93",
   "status": "proved",
   "theorems": [
    "C93_file",
    "C93_unwrap",
    "C93_random_walk",
    "C93_depth_bounded",
    "C93_coverage_guided",
    "C93_weighted"
   ],
   "note": "The averages are upper bounds; a draw from m values is taken as a remainder modulo m of equally likely numbers, as in C70."
  },
  {
   "property": "C94",
   "status": "proved",
   "theorems": [
    "C94_ends",
    "C94_trees"
   ],
   "note": "The unbounded average is proved for RandomWalk, which is what generate_seeded uses in the benchmarks."
  },
  {
   "property": "C95",
   "status": "proved",
   "theorems": [
    "C95_texts",
    "C95_create_grammar",
    "C95_create_every",
    "C95_parse_tree",
    "C95_polish_generated",
    "C95_polish_trees",
    "C95_polish_unambiguous",
    "C95_polish_work",
    "C95_cycle"
   ],
   "note": "Sentences and random sources are parameters of the modelled programs. How much is printed before a call that does not return is not modelled."
  },
  {
   "property": "C96",
   "status": "proved",
   "theorems": [
    "C96_table",
    "C96_window",
    "C96_new_window",
    "C96_torn"
   ],
   "note": ""
  },
  {
   "property": "C97",
   "status": "proved",
   "theorems": [
    "C97_ids",
    "C97_same",
    "C97_contents",
    "C97_matched",
    "C97_append_only",
    "C97_panics"
   ],
   "note": ""
  },
  {
   "property": "C98",
   "status": "proved",
   "theorems": [
    "C98_queue",
    "C98_pop",
    "C98_firsts",
    "C98_incomplete",
    "C98_complete",
    "C98_parse"
   ],
   "note": ""
  },
  {
   "property": "C99",
   "status": "proved",
   "theorems": [
    "C99_parse_from",
    "C99_unambiguous",
    "C99_format_irrelevant",
    "C99_path_not_observable",
    "C99_start_char",
    "C99_well_formed",
    "C99_builtin",
    "C99_empty_separator",
    "C99_equal_separators_refuted",
    "C99_quoted_names_refuted",
    "C99_start_char_refuted"
   ],
   "note": ""
  },
  {
   "property": "C100",
   "status": "proved",
   "theorems": [
    "C100_expansion",
    "C100_same",
    "C100_added",
    "C100_exchanged",
    "C100_renamed",
    "C100_order_refuted",
    "C100_name_refuted"
   ],
   "note": ""
  },
  {
   "property": "C101",
   "status": "proved",
   "theorems": [
    "C101_node_by_node",
    "C101_add_production",
    "C101_add_to_rhs",
    "C101_remove_production",
    "C101_remove_from_rhs",
    "C101_generation",
    "C101_ends_refuted",
    "C101_order_refuted",
    "C101_text_refuted"
   ],
   "note": ""
  },
  {
   "property": "C102",
   "status": "proved",
   "theorems": [
    "C102_codes",
    "C102_equality",
    "C102_tables"
   ],
   "note": ""
  },
  {
   "property": "C103",
   "status": "proved",
   "theorems": [
    "C103_normalized",
    "C103_read",
    "C103_attained",
    "C103_display",
    "C103_display_read",
    "C103_display_long"
   ],
   "note": ""
  },
  {
   "property": "C104",
   "status": "proved",
   "theorems": [
    "C104_either",
    "C104_either_all",
    "C104_sequence",
    "C104_sequence_all",
    "C104_repeated",
    "C104_mirror",
    "C104_mirror_all",
    "C104_built",
    "C104_generated"
   ],
   "note": ""
  },
  {
   "property": "C105",
   "status": "proved",
   "theorems": [
    "C105_transparent",
    "C105_every_parse",
    "C105_story",
    "C105_story_end",
    "C105_nested",
    "C105_pops",
    "C105_announced",
    "C105_trees",
    "C105_work"
   ],
   "note": ""
  },
  {
   "property": "C106",
   "status": "proved",
   "theorems": [
    "C106_transparent",
    "C106_nested",
    "C106_linear",
    "C106_story",
    "C106_entries",
    "C106_items",
    "C106_build"
   ],
   "note": ""
  },
  {
   "property": "C107",
   "status": "proved",
   "theorems": [
    "C107_entry_points",
    "C107_generator",
    "C107_calls",
    "C107_sentences",
    "C107_position",
    "C107_reuse_refuted",
    "C107_constructors",
    "C107_structs"
   ],
   "note": ""
  },
  {
   "property": "C108",
   "status": "proved",
   "theorems": [
    "C108_words",
    "C108_opening",
    "C108_parsing",
    "C108_reading",
    "C108_reading_format",
    "C108_names",
    "C108_mermaid",
    "C108_display",
    "C108_generation"
   ],
   "note": ""
  },
  {
   "property": "C109",
   "status": "proved",
   "theorems": [
    "C109_only_viable",
    "C109_all_viable",
    "C109_arrives",
    "C109_characters",
    "C109_rest",
    "C109_refused",
    "C109_any_grammar_refuted",
    "C109_any_terminals_refuted"
   ],
   "note": ""
  },
  {
   "property": "C110",
   "status": "proved",
   "theorems": [
    "C110_matched_once",
    "C110_matched_end",
    "C110_predictions",
    "C110_log",
    "C110_linear",
    "C110_quadratic",
    "C110_append",
    "C110_states"
   ],
   "note": ""
  },
  {
   "property": "C111",
   "status": "proved",
   "theorems": [
    "C111_tables",
    "C111_vectors",
    "C111_kept",
    "C111_every_call",
    "C111_retains",
    "C111_linear",
    "C111_quadratic"
   ],
   "note": ""
  },
  {
   "property": "C112",
   "status": "proved",
   "theorems": [
    "C112_display",
    "C112_nodes",
    "C112_display_bound",
    "C112_mermaid",
    "C112_mermaid_bound",
    "C112_lists"
   ],
   "note": ""
  },
  {
   "property": "C113",
   "status": "proved",
   "theorems": [
    "C113_same_calls",
    "C113_same_trees",
    "C113_utf8",
    "C113_letters",
    "C113_decodable",
    "C113_work_refuted",
    "C113_undecodable_refuted"
   ],
   "note": ""
  },
  {
   "property": "C114",
   "status": "proved",
   "theorems": [
    "C114_cuts",
    "C114_cuts_all",
    "C114_cuts_refuted",
    "C114_cuts_end",
    "C114_unfold",
    "C114_unfold_tree",
    "C114_unfold_all",
    "C114_unfold_refuted",
    "C114_unfold_generated",
    "C114_unfold_end",
    "C114_unfold_end_refuted",
    "C114_idle",
    "C114_idle_terminal",
    "C114_idle_nonterminal",
    "C114_idle_end_refuted"
   ],
   "note": ""
  },
  {
   "property": "C115",
   "status": "proved",
   "theorems": [
    "C115_part",
    "C115_exchange",
    "C115_height",
    "C115_long",
    "C115_short",
    "C115_unbounded",
    "C115_counting"
   ],
   "note": ""
  },
  {
   "property": "C116",
   "status": "proved",
   "theorems": [
    "C116_most",
    "C116_reached",
    "C116_all",
    "C116_accepts",
    "C116_finite",
    "C116_height_attained"
   ],
   "note": ""
  },
  {
   "property": "C117",
   "status": "proved",
   "theorems": [
    "C117_accepts",
    "C117_generated",
    "C117_returned",
    "C117_all",
    "C117_end",
    "C117_used_refuted",
    "C117_elsewhere_refuted",
    "C117_begins_refuted"
   ],
   "note": ""
  }
 ]
}
