{
 "claims": [
  {
   "property": "C01",
   "status": "proved",
   "theorems": [
    "c01_accepted_is_sentence"
   ],
   "note": ""
  },
  {
   "property": "C02",
   "status": "proved",
   "theorems": [
    "c02_value_of_tree"
   ],
   "note": "binding of named symbols: ubindings in Spec.v"
  },
  {
   "property": "C03",
   "status": "proved",
   "theorems": [
    "c03_whole_input"
   ],
   "note": ""
  },
  {
   "property": "C04",
   "status": "proved",
   "theorems": [
    "c04_no_panic"
   ],
   "note": "the only other panic in the model, NoTokenMatch, stands for a token no entry matches (excluded by rustc exhaustiveness checking)"
  },
  {
   "property": "C05",
   "status": "proved",
   "theorems": [
    "c05_terminates",
    "c05_refuted"
   ],
   "note": "side conditions in USpec.v; c05_refuted: without tails_productive the parser can run forever"
  },
  {
   "property": "C06",
   "status": "proved",
   "theorems": [
    "c06_lexer_error",
    "c06_lexer_error_running"
   ],
   "note": ""
  },
  {
   "property": "C07",
   "status": "proved",
   "theorems": [
    "c07_error_immediate",
    "c07_refuted"
   ],
   "note": "side condition tails_reliable; c07_refuted: LR(1) and productive is not enough"
  },
  {
   "property": "C08",
   "status": "proved",
   "theorems": [
    "c08_found"
   ],
   "note": ""
  },
  {
   "property": "C09",
   "status": "proved",
   "theorems": [
    "c09_expected",
    "c09_end_not_listed"
   ],
   "note": "side condition tails_reliable; see error_report in PropSpec.v"
  },
  {
   "property": "C10",
   "status": "proved",
   "theorems": [
    "c10_one_lookahead",
    "c10_one_lookahead_running"
   ],
   "note": ""
  },
  {
   "property": "C11",
   "status": "proved",
   "theorems": [
    "c11_complete"
   ],
   "note": "conditions ulr1_grammar and tails_plain (USpec.v)"
  },
  {
   "property": "C12",
   "status": "proved",
   "theorems": [
    "c12_exact",
    "c12_exact_no_empty"
   ],
   "note": ""
  },
  {
   "property": "C13",
   "status": "proved",
   "theorems": [
    "c13_unambiguous",
    "c13_refuted"
   ],
   "note": "c13_refuted: acceptance alone does not imply unambiguity"
  },
  {
   "property": "C14",
   "status": "partial",
   "theorems": [
    "c14_refuted",
    "c11_complete"
   ],
   "note": "the full statement is false (c14_refuted: FIRST sets miss terminals behind nullable non-terminals, src/first.rs:78-82); c11_complete proves it for tails_plain grammars, and C75 says exactly which sentences are accepted otherwise"
  },
  {
   "property": "C15",
   "status": "proved",
   "theorems": [
    "c15_items_rejected",
    "c15_reduce_reduce_rejected_partial",
    "c15_refuted"
   ],
   "note": "c15_items_rejected is the property; the _partial theorem lifts it to the user-written grammar under tails_plain, without which it fails (c15_refuted)"
  },
  {
   "property": "C16",
   "status": "partial",
   "theorems": [
    "c16_items_rejected_partial",
    "c16_shift_reduce_rejected_partial",
    "c16_refuted",
    "c16_accept_refuted"
   ],
   "note": "the full statement is false: a shift silently replaces a reduction entered before it"
  },
  {
   "property": "C17",
   "status": "proved",
   "theorems": [
    "c17_shift",
    "c17_accept",
    "c17_reduce",
    "c17_entries"
   ],
   "note": ""
  },
  {
   "property": "C18",
   "status": "proved",
   "theorems": [
    "c18_no_spurious_conflict",
    "c18_lr1_no_conflict",
    "c18_conflicts_exact"
   ],
   "note": ""
  },
  {
   "property": "C19",
   "status": "proved",
   "theorems": [
    "c19_first_sound"
   ],
   "note": ""
  },
  {
   "property": "C20",
   "status": "partial",
   "theorems": [
    "c20_first_complete_partial",
    "c20_eps_free_exact_partial",
    "c20_refuted",
    "c20_empty_refuted"
   ],
   "note": "the full statement is false (two defects of src/first.rs)"
  },
  {
   "property": "C21",
   "status": "proved",
   "theorems": [
    "c21_expansion_terminates"
   ],
   "note": ""
  },
  {
   "property": "C22",
   "status": "proved",
   "theorems": [
    "c22_hash_order_irrelevant",
    "c22_same_panic",
    "c22_expands_or_panics"
   ],
   "note": ""
  },
  {
   "property": "C23",
   "status": "partial",
   "theorems": [
    "c23_items_valid",
    "c23_valid_items_partial",
    "c23_transitions",
    "c23_computed",
    "c23_refuted"
   ],
   "note": "one inclusion and the transitions hold for all grammars; the other inclusion needs tails_plain (c23_refuted); c23_computed: for every grammar the states are the valid items of the computed FIRST table"
  },
  {
   "property": "C24",
   "status": "proved",
   "theorems": [
    "c24_distinct",
    "c24_reachable",
    "c24_entries"
   ],
   "note": ""
  },
  {
   "property": "C25",
   "status": "proved",
   "theorems": [
    "c25_dimensions",
    "c25_goto",
    "c25_expected",
    "c25_in_range",
    "c17_entries"
   ],
   "note": ""
  },
  {
   "property": "C26",
   "status": "proved",
   "theorems": [
    "c26_bounds",
    "c26_functions"
   ],
   "note": ""
  },
  {
   "property": "C27",
   "status": "proved",
   "theorems": [
    "c27_numbering"
   ],
   "note": "fields nb_function, nb_injective, nb_reduce of numbering (GenSpec.v)"
  },
  {
   "property": "C28",
   "status": "proved",
   "theorems": [
    "c27_numbering"
   ],
   "note": "field nb_function of numbering (GenSpec.v)"
  },
  {
   "property": "C29",
   "status": "proved",
   "theorems": [
    "c27_numbering"
   ],
   "note": "fields nb_variant, nb_variants of numbering (GenSpec.v)"
  },
  {
   "property": "C30",
   "status": "proved",
   "theorems": [
    "c30_token_functions",
    "c30_refuted"
   ],
   "note": "c30_refuted: one-element tuple patterns must be excluded"
  },
  {
   "property": "C31",
   "status": "proved",
   "theorems": [
    "c31_lowering_trees",
    "c31_lowering_language"
   ],
   "note": ""
  },
  {
   "property": "C32",
   "status": "proved",
   "theorems": [
    "c32_lowering_accepts",
    "c32_lowering_diagnoses",
    "c32_lowering_total"
   ],
   "note": ""
  },
  {
   "property": "C33",
   "status": "partial",
   "theorems": [
    "c33_refuted",
    "c31_lowering_trees"
   ],
   "note": "false as stated (c33_refuted); with distinct names every production is usable by c31_lowering_trees; exactly what happens otherwise: C47"
  },
  {
   "property": "C34",
   "status": "proved",
   "theorems": [
    "c34_parsers",
    "c01_accepted_is_sentence",
    "c11_complete"
   ],
   "note": ""
  },
  {
   "property": "C35",
   "status": "proved",
   "theorems": [
    "c35_viable_prefix",
    "c35_viable_prefix_running"
   ],
   "note": ""
  },
  {
   "property": "C36",
   "status": "proved",
   "theorems": [
    "c36_effects",
    "c36_effects_running"
   ],
   "note": ""
  },
  {
   "property": "C37",
   "status": "proved",
   "theorems": [
    "c37_declarations",
    "c37_item_order"
   ],
   "note": ""
  },
  {
   "property": "C38",
   "status": "proved",
   "theorems": [
    "c38_declaration_order",
    "c38_outcomes",
    "c38_refuted"
   ],
   "note": "c38_outcomes: all outcomes, without LR(1); c38_refuted: without tails_plain the order matters"
  },
  {
   "property": "C39",
   "status": "proved",
   "theorems": [
    "c39_panics",
    "c39_raw_names"
   ],
   "note": "raw names of entry points and of the token type: a defect, see case_c39_raw_names, case_c39_raw_token_type"
  },
  {
   "property": "C40",
   "status": "proved",
   "theorems": [
    "c40_correct_prefix",
    "c40_decides"
   ],
   "note": ""
  },
  {
   "property": "C41",
   "status": "proved",
   "theorems": [
    "c41_reads_syntax",
    "c41_accepts_only_syntax",
    "c41_commas",
    "c41_unambiguous"
   ],
   "note": "relative to the laws syn_parsers (DslSpec.v) about syn's parsers of types, expressions, paths; toy_syn is an instance"
  },
  {
   "property": "C42",
   "status": "proved",
   "theorems": [
    "c42_writable"
   ],
   "note": ""
  },
  {
   "property": "C43",
   "status": "proved",
   "theorems": [
    "c43_terminates",
    "c43_expands_written",
    "c43_expands_only_written",
    "c43_same_module",
    "c43_macro_panics"
   ],
   "note": ""
  },
  {
   "property": "C44",
   "status": "proved",
   "theorems": [
    "c44_panics_only",
    "c44_panics",
    "c44_written_no_panic",
    "c44_errors_otherwise",
    "c44_macro_panics",
    "c44_macro_errors"
   ],
   "note": ""
  },
  {
   "property": "C45",
   "status": "proved",
   "theorems": [
    "c45_literal_ignored"
   ],
   "note": "a defect of symbol0 (src/ast.rs:401-409), stated as it is"
  },
  {
   "property": "C46",
   "status": "proved",
   "theorems": [
    "c46_tables",
    "c46_diagnostics",
    "c46_rename",
    "c46_rename_diagnostics",
    "c46_rename_runs"
   ],
   "note": ""
  },
  {
   "property": "C47",
   "status": "proved",
   "theorems": [
    "c47_distinct",
    "c47_merged",
    "c47_conflicts",
    "c47_runs",
    "c47_parsers",
    "c47_accepted",
    "c47_shadowed",
    "c47_last",
    "c47_fresh_names"
   ],
   "note": "the defect behind C33, described exactly"
  },
  {
   "property": "C48",
   "status": "proved",
   "theorems": [
    "c48_related",
    "c48_related_running",
    "c48_typed"
   ],
   "note": ""
  },
  {
   "property": "C49",
   "status": "proved",
   "theorems": [
    "c49_responses",
    "c49_responses_running",
    "c49_same_responses",
    "c49_same_responses_running"
   ],
   "note": ""
  },
  {
   "property": "C50",
   "status": "proved",
   "theorems": [
    "c50_control"
   ],
   "note": ""
  },
  {
   "property": "C51",
   "status": "proved",
   "theorems": [
    "c51_linear"
   ],
   "note": "under the conditions of C05 (without them parsing may not terminate: c05_refuted)"
  },
  {
   "property": "C52",
   "status": "proved",
   "theorems": [
    "c52_items",
    "c52_safe",
    "c52_scope",
    "c52_functions",
    "c52_members",
    "c52_typed",
    "c52_parsers",
    "c52_value_stack",
    "c52_clash_refuted",
    "c52_parameters",
    "c52_lowercase",
    "c52_value_stack_refuted",
    "c52_parameters_refuted"
   ],
   "note": "the restrictions on names are exact; the c52_*_refuted theorems show them needed"
  },
  {
   "property": "C53",
   "status": "proved",
   "theorems": [
    "c53_cast_harmless"
   ],
   "note": "a module without entry points cannot be run; for such modules no check bounds the number of non-terminals"
  },
  {
   "property": "C54",
   "status": "proved",
   "theorems": [
    "c54_knuth",
    "c54_refuted"
   ],
   "note": "c54_refuted: the condition tails_plain is needed even for LR(1) grammars"
  },
  {
   "property": "C55",
   "status": "proved",
   "theorems": [
    "c55_local"
   ],
   "note": "c63_refuted: the condition tails_plain is needed"
  },
  {
   "property": "C56",
   "status": "proved",
   "theorems": [
    "c56_knuth",
    "c56_pure",
    "c56_return_wrong_value"
   ],
   "note": "c56_return_wrong_value: a return inside an action must be excluded"
  },
  {
   "property": "C57",
   "status": "proved",
   "theorems": [
    "c57_no_internal_panic",
    "c57_results",
    "c57_refuted"
   ],
   "note": "c57_refuted: a return inside an action must be excluded"
  },
  {
   "property": "C58",
   "status": "proved",
   "theorems": [
    "c58_replay",
    "c58_recording",
    "c58_linear"
   ],
   "note": ""
  },
  {
   "property": "C59",
   "status": "proved",
   "theorems": [
    "c59_sets",
    "c59_lookaheads",
    "c59_machine",
    "c59_effects"
   ],
   "note": "computed: the sets of the model of src/first.rs read with the user's names; c59_sets says what they are"
  },
  {
   "property": "C60",
   "status": "proved",
   "theorems": [
    "c60_conflicts",
    "c60_accepted"
   ],
   "note": ""
  },
  {
   "property": "C61",
   "status": "proved",
   "theorems": [
    "c61_messages",
    "c61_computed",
    "c61_always_a_message",
    "c61_one_message",
    "c61_state_unique",
    "c61_names_readable",
    "c61_literal"
   ],
   "note": "the text for a token without an entry wrongly calls it a non-terminal (case_c61_terminal)"
  },
  {
   "property": "C62",
   "status": "proved",
   "theorems": [
    "c62_behaviour",
    "c62_permuted",
    "c62_extended",
    "c62_accepted"
   ],
   "note": ""
  },
  {
   "property": "C63",
   "status": "proved",
   "theorems": [
    "c63_below",
    "c63_added",
    "c63_added_refuted",
    "c63_refuted"
   ],
   "note": "c63_refuted: the second sentence. c63_added_refuted: the last one (far4, far5)"
  },
  {
   "property": "C64",
   "status": "proved",
   "theorems": [
    "c64_parse",
    "c64_defined",
    "c64_returns",
    "c64_value",
    "c64_exact",
    "c64_decides",
    "c64_panics",
    "c64_defined_refuted"
   ],
   "note": "c64_defined_refuted: accepted grammars with other names whose module does not compile"
  },
  {
   "property": "C65",
   "status": "proved",
   "theorems": [
    "c65_bindings",
    "c65_refuted"
   ],
   "note": "c65_refuted: the last sentence"
  },
  {
   "property": "C66",
   "status": "proved",
   "theorems": [
    "c66_spliced"
   ],
   "note": ""
  },
  {
   "property": "C67",
   "status": "proved",
   "theorems": [
    "c67_names",
    "c67_well_typed",
    "c67_needs",
    "c67_exactly",
    "c67_mentions",
    "c67_refuted"
   ],
   "note": "relative to the type system of RustTypes.v, which leaves out lifetimes, borrows and moves; c67_refuted: the last sentence"
  },
  {
   "property": "C68",
   "status": "proved",
   "theorems": [
    "c68_names",
    "c68_exactly",
    "c68_parse",
    "c68_entries",
    "c68_value",
    "c68_sentences",
    "c68_decides",
    "c68_no_panic",
    "c68_refuted"
   ],
   "note": "relative to Rust.v and RustTypes.v; the hypothesis on ut_covers in c68_no_panic is the soundness of the exhaustiveness check of the user type"
  },
  {
   "property": "C69",
   "status": "proved",
   "theorems": [
    "c69_total",
    "c69_reproducible",
    "c69_cases",
    "c69_value",
    "c69_sentences",
    "c69_decides",
    "c69_no_panic"
   ],
   "note": "relative to Rust.v and RustTypes.v, and to the parsers of syn for types, expressions and paths"
  },
  {
   "property": "C70",
   "status": "proved",
   "theorems": [
    "c70_running",
    "c70_ends",
    "c70_value",
    "c70_complete",
    "c70_exactly",
    "c70_emitted"
   ],
   "note": "c70_emitted is relative to Rust.v and RustTypes.v"
  },
  {
   "property": "C71",
   "status": "proved",
   "theorems": [
    "c71_stacks",
    "c71_height",
    "c71_flat",
    "c71_nested",
    "c71_bounded",
    "c71_tokens",
    "c71_exact",
    "c71_linear"
   ],
   "note": "entries are counted, not bytes"
  },
  {
   "property": "C72",
   "status": "proved",
   "theorems": [
    "c72_viable",
    "c72_prompt",
    "c72_error",
    "c72_decides"
   ],
   "note": ""
  },
  {
   "property": "C73",
   "status": "proved",
   "theorems": [
    "c73_same",
    "c73_same_strings",
    "c73_value"
   ],
   "note": ""
  },
  {
   "property": "C74",
   "status": "proved",
   "theorems": [
    "c74_knuth",
    "c74_handles",
    "c74_inclusions",
    "c74_no_conflict",
    "c74_exact",
    "c74_beyond_lalr"
   ],
   "note": "LrSpec.v is the specification (rightmost derivations, Knuth's definition, FOLLOW, LR(0) items, SLR(1), LALR(1), LL(1)); tests/tests.rs balanced_parens shown LL(1), a left-recursive list SLR(1) and not LL(1)"
  },
  {
   "property": "C75",
   "status": "proved",
   "theorems": [
    "c75_language",
    "c75_sentences",
    "c75_complete",
    "c75_all",
    "c75_plain"
   ],
   "note": "Exact: c75_language (shared state, panics), c75_sentences (actions that do not panic), c75_all (all sentences accepted iff all lookaheads known); cases: hidden (LR(1), a sentence not covered), covers (not plain, yet complete). This is the exact criterion behind C14, C20, C23, whose full statements are refuted."
  },
  {
   "property": "C76",
   "status": "proved",
   "theorems": [
    "c76_language",
    "c76_running",
    "c76_unique",
    "c76_sentences",
    "c76_lr1",
    "c76_emitted"
   ],
   "note": "c76_language: Ok exactly with the value of a chosen tree, lexer and actions sharing a state. c76_running: at every moment the forest built is chosen. c76_unique: at most one chosen tree per token sequence, for every accepted grammar. c76_sentences: actions that do not panic. c76_lr1: for LR(1) grammars chosen = all lookaheads known (C75). c76_emitted: of the interpreted emitted code. This is the positive content of C14 and C16, whose full statements are refuted."
  },
  {
   "property": "C77",
   "status": "proved",
   "theorems": [
    "c77_sound",
    "c77_exact",
    "c77_plain",
    "c77_order",
    "c77_terminates",
    "c77_refuted"
   ],
   "note": "c77_sound, c77_exact, c77_plain against derivations (FollowSpec.v). c77_terminates: every lowered grammar. c77_refuted: terminals missing in FIRST (src/first.rs:78-82) are missing in FOLLOW, so exactness needs its side condition. The code is not compiled into the macro."
  },
  {
   "property": "C78",
   "status": "proved",
   "theorems": [
    "c78_states",
    "c78_paths",
    "c78_reached",
    "c78_distinct",
    "c78_order",
    "c78_rightmost",
    "c78_nothing_missing",
    "c78_terminates"
   ],
   "note": "c78_states, c78_paths, c78_reached, c78_distinct: for every result of the construction. c78_rightmost: the inductive validity used there is Knuth's. The start item is production 0 of the first non-terminal only (case_c78_start). The code is not compiled into the macro."
  },
  {
   "property": "C79",
   "status": "proved",
   "theorems": [
    "c79_builds",
    "c79_panics",
    "c79_actions",
    "c79_gotos"
   ],
   "note": "In terms of valid items (C78) and the FOLLOW table (C77). case_c79_accepts_early: with more than one symbol in production 0 the table accepts after the first (src/lr0.rs:263-270). The code is not compiled into the macro."
  },
  {
   "property": "C80",
   "status": "proved",
   "theorems": [
    "c80_sound",
    "c80_complete",
    "c80_exact",
    "c80_builds"
   ],
   "note": "slr1: no two valid items clash, in terms of derivations. case_c80_not_augmented: without the first condition more than the language is accepted. Code used in unit tests only."
  },
  {
   "property": "C81",
   "status": "proved",
   "theorems": [
    "c81_no_panic",
    "c81_grammar",
    "c81_first",
    "c81_automaton",
    "c81_macro",
    "c81_table",
    "c81_table_entries",
    "c81_lr0",
    "c81_item",
    "c81_names_refuted"
   ],
   "note": "item_view, set_view, ...: content with symbols replaced by their names (DisplaySpec.v). c81_names_refuted: two macro inputs with equal printed grammars and different languages (generated name A1)."
  },
  {
   "property": "C82",
   "status": "proved",
   "theorems": [
    "c82_linear_or_never",
    "c82_decided",
    "c82_effects"
   ],
   "note": "Complements C05 and C51, whose conditions are not needed here. c82_effects: user code that shares a state, panics and returns at will. case_c82_never: an accepted grammar whose parser never returns."
  },
  {
   "property": "C83",
   "status": "proved",
   "theorems": [
    "c83_waiting",
    "c83_program_waiting",
    "c83_program_decides"
   ],
   "note": "good_user (PropertiesWaiting.v): user code that does not panic and whose tokens come to an end. case_c83_skips: actions that discard tokens."
  },
  {
   "property": "C84",
   "status": "proved",
   "theorems": [
    "c84_tables",
    "c84_loops"
   ],
   "note": "fuel of the model bounds each loop separately; c84_loops gives the bound explicitly in terms of the declarations, where C21 only says that some bound exists. case_c84: arith, 132 items, 24 rows of 6 and 5 columns."
  },
  {
   "property": "C85",
   "status": "proved",
   "theorems": [
    "c85_replace",
    "c85_value"
   ],
   "note": "C73 for emitted code: Rust.v evaluates the two modules. case_c85: the sum of C69 and a right-recursive version of it, from the tokens of the macro calls, with both languages computed."
  }
 ]
}