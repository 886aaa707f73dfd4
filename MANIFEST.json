{
 "claims": [
  {
   "property": "C01",
   "status": "partial",
   "theorems": [
    "C01_recognition_sound",
    "C01_without_eps_trailing_refuted"
   ],
   "note": "Soundness proved for every grammar whose epsilon nodes are trailing and that has no EndOfStream terminal. Without the first condition it is false (C01_without_eps_trailing_refuted: `S -> ! a`), a finding about Position::next_node/advance."
  },
  {
   "property": "C02",
   "status": "partial",
   "theorems": [
    "C02_recognition_complete_refuted",
    "C02_recognition_complete_partial"
   ],
   "note": "Full statement false (finding): FirstTable::propagate_map adds epsilon without setting `changed`. Proved whenever the computed FIRST sets miss nothing, which C14 shows for direct_epsilon grammars."
  },
  {
   "property": "C03",
   "status": "proved",
   "theorems": [
    "C03_construction_terminates"
   ],
   "note": "Proved for every grammar, via a finite bound on the set of kernels."
  },
  {
   "property": "C04",
   "status": "partial",
   "theorems": [
    "C04_construction_never_panics_refuted",
    "C04_construction_never_panics_partial"
   ],
   "note": "Full statement false (finding): a root rule that mentions its own label panics. Proved that this is the only way to panic."
  },
  {
   "property": "C05",
   "status": "partial",
   "theorems": [
    "C05_parsing_terminates_refuted",
    "C05_parsing_never_panics_refuted",
    "C05_parsing_total_partial"
   ],
   "note": "Full statement false in two ways (findings): an EndOfStream terminal makes the simulator loop; an epsilon node before another node makes it panic in debug builds. Proved for all other grammars."
  },
  {
   "property": "C06",
   "status": "partial",
   "theorems": [
    "C06_unambiguous_refuted",
    "C06_unambiguous_partial"
   ],
   "note": "Full statement false (finding, same cause as C02). Proved whenever the computed FIRST sets miss nothing."
  },
  {
   "property": "C07",
   "status": "partial",
   "theorems": [
    "C07_accepted_is_lr1_refuted",
    "C07_lr1_is_accepted_refuted",
    "C07_accepted_iff_lr1_partial",
    "C07_accepted_iff_conflict_free_partial",
    "C07_conflict_free_is_accepted_partial"
   ],
   "note": "Full statement false in both directions (findings): the FIRST bug accepts a non-LR(1) grammar; a label deriving nothing makes an LR(1) grammar be rejected. Proved for productive grammars with complete FIRST sets, and in general for a liberal notion of item."
  },
  {
   "property": "C08",
   "status": "partial",
   "theorems": [
    "C08_kinds_of_errors",
    "C08_conflicts_genuine_refuted",
    "C08_conflicts_genuine_epsilon_refuted",
    "C08_conflicts_genuine_partial",
    "C08_conflicts_liberal_partial"
   ],
   "note": "That only shift/reduce and reduce/reduce conflicts are reported is proved for every grammar. That they are textbook conflicts is false for unproductive labels and for epsilon nodes before another node (findings); proved otherwise."
  },
  {
   "property": "C09",
   "status": "proved",
   "theorems": [
    "C09_validation_exact"
   ],
   "note": "Validation accepts exactly the grammars meeting an independent definition of validity, with the right error."
  },
  {
   "property": "C10",
   "status": "proved",
   "theorems": [
    "C10_indexing_lossless"
   ],
   "note": "The indexed grammar is an isomorphic copy of the source grammar."
  },
  {
   "property": "C11",
   "status": "proved",
   "theorems": [
    "C11_vocabulary_bijection"
   ],
   "note": "Proved."
  },
  {
   "property": "C12",
   "status": "proved",
   "theorems": [
    "C12_bitset_is_a_set",
    "C12_bitset_out_of_range"
   ],
   "note": "Proved against an arbitrary sequence of operations; out-of-range ids panic in debug builds."
  },
  {
   "property": "C13",
   "status": "proved",
   "theorems": [
    "C13_sparse_map_is_a_map"
   ],
   "note": "Proved against an arbitrary sequence of operations."
  },
  {
   "property": "C14",
   "status": "partial",
   "theorems": [
    "C14_first_sets_sound",
    "C14_first_sets_complete_refuted",
    "C14_first_sets_complete_partial"
   ],
   "note": "Soundness proved for every grammar; completeness false (finding, first_map.rs:49), proved for direct_epsilon grammars."
  },
  {
   "property": "C15",
   "status": "partial",
   "theorems": [
    "C15_state_positions_partial",
    "C15_state_lookaheads_partial",
    "C15_state_lr1_items_partial",
    "C15_states_exist_partial",
    "C15_state_lookaheads_refuted",
    "C15_state_positions_refuted"
   ],
   "note": "Full statement false twice (findings: the FIRST bug loses a lookahead; an epsilon node before another node gives a state without items). Proved: positions exact and follow sets sound for trailing epsilon; follow sets exact when FIRST sets are complete; equal to the textbook's LR(1) items for productive grammars."
  },
  {
   "property": "C16",
   "status": "proved",
   "theorems": [
    "C16_states_reachable",
    "C16_states_are_kernels",
    "C16_prefixes_have_kernels",
    "C16_states_are_item_sets",
    "C16_kernel_order_free"
   ],
   "note": "Proved. States are the prefixes' kernels; with the hypotheses of C15 they are the textbook's item sets."
  },
  {
   "property": "C17",
   "status": "proved",
   "theorems": [
    "C17_accessors_agree"
   ],
   "note": "Proved for every built table."
  },
  {
   "property": "C18",
   "status": "proved",
   "theorems": [
    "C18_state_map_types"
   ],
   "note": "Proved for every built table and every hash-map enumeration order; also that no edge enters the root state."
  },
  {
   "property": "C19",
   "status": "proved",
   "theorems": [
    "C19_back_edges_exact"
   ],
   "note": "Proved for every built table and every hash-map enumeration order."
  },
  {
   "property": "C20",
   "status": "partial",
   "theorems": [
    "C20_error_is_earliest_refuted",
    "C20_consumed_is_viable_refuted",
    "C20_error_position_partial"
   ],
   "note": "Full statement false twice (findings): through the FIRST bug a token is rejected although a sentence continues with it; with a label that derives nothing, tokens are consumed that begin no sentence. Proved: the position reported is exact; the consumed tokens begin a sentence if every label derives something; no sentence continues with the reported token if FIRST sets are complete and the tokens match one terminal each."
  },
  {
   "property": "C21",
   "status": "proved",
   "theorems": [
    "C21_no_undefined_behaviour"
   ],
   "note": "Proved for every generated parser, stream, hash order, build mode and constructors. The model gives Panic for unreachable_unchecked, unwrap_unchecked on an empty stack, verify_empty_stack and code that does not compile."
  },
  {
   "property": "C22",
   "status": "partial",
   "theorems": [
    "C22_emitted_code_partial",
    "C22_sentences_are_evaluated_refuted",
    "C22_overlapping_tokens_refuted",
    "C22_sentences_are_evaluated_partial"
   ],
   "note": "Full statement false (findings: FIRST bug; overlapping patterns in release builds). Proved for grammars with complete FIRST sets and tokens matching one terminal each."
  },
  {
   "property": "C23",
   "status": "proved",
   "theorems": [
    "C23_value_only_for_sentences"
   ],
   "note": "Proved for every generated parser and every stream."
  },
  {
   "property": "C24",
   "status": "proved",
   "theorems": [
    "C24_constructor_calls",
    "C24_constructor_calls_so_far"
   ],
   "note": "Proved, with the arguments of each call; also for unfinished runs."
  },
  {
   "property": "C25",
   "status": "proved",
   "theorems": [
    "C25_stream_errors_propagate"
   ],
   "note": "Proved for an error at any position, whatever the stream gives after it."
  },
  {
   "property": "C26",
   "status": "proved",
   "theorems": [
    "C26_lookahead_of_one",
    "C26_lookahead_at_end",
    "C26_not_read_after_end",
    "C26_not_read_after_end_final"
   ],
   "note": "Proved for every state a run passes through and for its end."
  },
  {
   "property": "C27",
   "status": "partial",
   "theorems": [
    "C27_overlaps_are_reported_refuted",
    "C27_overlaps_are_reported_partial",
    "C27_result_independent",
    "C27_result_independent_if_checked"
   ],
   "note": "Full statement false for `terminal` types (finding: two spellings of a literal; the result then depends on hash order). Proved for `enum_terminal`: exactly the overlaps are reported; without them the result is independent of build modes and hash orders, for both kinds of terminal type."
  },
  {
   "property": "C28",
   "status": "partial",
   "theorems": [
    "C28_character_in_enum_refuted",
    "C28_recursive_root_refuted",
    "C28_generation_succeeds_partial"
   ],
   "note": "Full statement false (findings): a character literal with enum_terminal panics in as_ident; a first rule mentioning its own label fails a debug assertion. Proved otherwise: only errors of constructors and literals, which are reported."
  },
  {
   "property": "C29",
   "status": "proved",
   "theorems": [
    "C29_arms_are_well_typed"
   ],
   "note": "Proved, also for what is pushed."
  },
  {
   "property": "C30",
   "status": "proved",
   "theorems": [
    "C30_grammars_built",
    "C30_accepted"
   ],
   "note": "Proved for every token stream, also for grammars that lr_table then rejects."
  },
  {
   "property": "C31",
   "status": "proved",
   "theorems": [
    "C31_reads_what_was_written",
    "C31_declarations_are_read",
    "C31_unambiguous",
    "C31_errors_otherwise"
   ],
   "note": "Proved in both directions against a grammar of declarations over tokens; the reading is unique, and every other input is an error. From accepted to written it needs that joint punctuation is followed by punctuation (as in source text; see C40)."
  },
  {
   "property": "C32",
   "status": "proved",
   "theorems": [
    "C32_one_type_per_label",
    "C32_mismatch_is_reported"
   ],
   "note": "Proved; also that the error is reported exactly for a label declared with two types."
  },
  {
   "property": "C33",
   "status": "proved",
   "theorems": [
    "C33_substitution_exact",
    "C33_rejections_exact",
    "C33_every_constructor"
   ],
   "note": "Proved: an exact characterisation of accepted bodies, of the first error otherwise, and that nothing else happens."
  },
  {
   "property": "C34",
   "status": "partial",
   "theorems": [
    "C34_variables_are_bound_refuted",
    "C34_variables_are_bound_partial"
   ],
   "note": "Full statement false (finding): the default constructor of `<A>: T => !;` uses `__v0`, which is not bound. Proved that this is the only case."
  },
  {
   "property": "C35",
   "status": "proved",
   "theorems": [
    "C35_reads_what_is_spelled",
    "C35_errors_exact",
    "C35_grammar_or_error",
    "C35_round_trip"
   ],
   "note": "Proved: the texts accepted and their meaning, the first error otherwise, and the round trip, for byte strings whose white space is ASCII. A label and a right-hand side may be empty (the code accepts `->`)."
  },
  {
   "property": "C36",
   "status": "partial",
   "theorems": [
    "C36_epsilon_neutral_refuted",
    "C36_epsilon_neutral_partial"
   ],
   "note": "Full statement false (finding: an epsilon node before another node is not neutral). Proved when epsilon nodes are trailing."
  },
  {
   "property": "C37",
   "status": "proved",
   "theorems": [
    "C37_unknown_tokens_rejected"
   ],
   "note": "Proved for every grammar."
  },
  {
   "property": "C38",
   "status": "proved",
   "theorems": [
    "C38_simulator_agrees"
   ],
   "note": "Proved."
  },
  {
   "property": "C39",
   "status": "proved",
   "theorems": [
    "C39_parse_is_parse_fallible"
   ],
   "note": "Proved for every program."
  },
  {
   "property": "C40",
   "status": "proved",
   "theorems": [
    "C40_tokenization_is_faithful",
    "C40_first_error"
   ],
   "note": "Proved: one symbol per token or fused pair, and the first error. Spacing is needed: a joint `:` before a non-punctuation token is moved behind it (example)."
  },
  {
   "property": "C41",
   "status": "partial",
   "theorems": [
    "C41_runs_end_refuted",
    "C41_runs_end_partial"
   ],
   "note": "In full, false: with an incomplete FIRST table and a token that matches two terminals the parser reduces empty rules forever (a bug). Proved for every stream that ends or fails if FIRST sets are complete, or the parser checks its tokens (debug build, enum tokens), or each token matches at most one terminal."
  },
  {
   "property": "C42",
   "status": "proved",
   "theorems": [
    "C42_expansion_returns"
   ],
   "note": "Proved. Both causes of a panic occur (examples). proc_macro2's parser of literals is a parameter."
  },
  {
   "property": "C43",
   "status": "partial",
   "theorems": [
    "C43_written_grammar_is_parsed_partial",
    "C43_sentences_are_parsed_refuted"
   ],
   "note": "Proved, except that a sentence is accepted only if FIRST sets are complete and the tokens match one terminal each (C22), for grammars whose parser compiles (C34). In full false: the FIRST bug makes the parser of a written grammar reject a sentence."
  },
  {
   "property": "C44",
   "status": "partial",
   "theorems": [
    "C44_accepted_is_lr1_refuted",
    "C44_lr1_is_accepted_refuted",
    "C44_accepted_iff_lr1_partial"
   ],
   "note": "Proved for grammars with complete FIRST sets, productive labels and a first rule that does not mention its own label; in full false in both directions, with written grammars as witnesses."
  },
  {
   "property": "C45",
   "status": "proved",
   "theorems": [
    "C45_table_text",
    "C45_text_determines_table"
   ],
   "note": "Proved for every built table. Text is a string of bytes (UTF-8); columns count characters."
  },
  {
   "property": "C46",
   "status": "proved",
   "theorems": [
    "C46_grammar_tokens",
    "C46_symbols_label_edges"
   ],
   "note": "Proved."
  },
  {
   "property": "C47",
   "status": "proved",
   "theorems": [
    "C47_errors_are_located"
   ],
   "note": "Proved. Whether an input is correct refers to the form of its symbols; the end of the input is in C48, errors found while generating code in C50."
  },
  {
   "property": "C48",
   "status": "partial",
   "theorems": [
    "C48_end_of_input_partial",
    "C48_end_of_input_refuted"
   ],
   "note": "Full statement false (finding): expect_symbol does not update current_span, so the error can point at an earlier symbol (example), or at the macro. Proved instead: it points at the last symbol that was looked at before it was read (l_file marks these), or at the macro if there is none."
  },
  {
   "property": "C49",
   "status": "proved",
   "theorems": [
    "C49_messages_tell_the_error"
   ],
   "note": "Proved."
  },
  {
   "property": "C50",
   "status": "proved",
   "theorems": [
    "C50_references_are_located",
    "C50_rules_are_located",
    "C50_reports_are_genuine",
    "C50_spans_change_nothing"
   ],
   "note": "Proved. What proc_macro2 says about a text that is no literal is a parameter."
  },
  {
   "property": "C51",
   "status": "partial",
   "theorems": [
    "C51_report_independent_refuted",
    "C51_generated_iff_clean_partial"
   ],
   "note": "Full statement false (finding): if two rules reduced in one state have bad constructors, the order of reduce_map decides which is reported. Proved: whether a parser is generated does not depend on orders, and it is iff nothing that is used is wrong."
  },
  {
   "property": "C52",
   "status": "proved",
   "theorems": [
    "C52_emitted_code_runs",
    "C52_emitted_code_is_defined",
    "C52_values_only_for_sentences"
   ],
   "note": "Proved. The meaning of the Rust fragment (Model/Rust.v) is trusted; constructors are arbitrary functions of the variables they name."
  },
  {
   "property": "C53",
   "status": "partial",
   "theorems": [
    "C53_variables_not_captured_refuted",
    "C53_types_not_captured_refuted",
    "C53_functions_not_captured_refuted",
    "C53_scope_of_constructors_partial",
    "C53_names_are_distinct",
    "C53_variables_are_bound",
    "C53_names_resolve",
    "C53_matches_are_exhaustive"
   ],
   "note": "Full statement false (findings): constructors see __peeked_val and __parser_generator_state; the state functions' type parameters I, B, E and the nested items capture the user's names. Proved: the names of the emitted code do not clash among themselves and are all declared, and exactly which variables constructors see."
  },
  {
   "property": "C54",
   "status": "partial",
   "theorems": [
    "C54_item_is_as_written",
    "C54_visibility_only",
    "C54_item_parses_partial",
    "C54_item_parses_refuted"
   ],
   "note": "Proved for names, types and visibility. That every sentence is parsed is proved for complete FIRST sets and tokens that match one terminal each (C22), for grammars whose parser compiles (C34) and whose constructors do not name variables of the emitted code (C53); in full false, a witness shows an emitted item that rejects a sentence."
  },
  {
   "property": "C55",
   "status": "proved",
   "theorems": [
    "C55_reports_are_right",
    "C55_reports_point_into_the_input"
   ],
   "note": "Proved, for token streams in which joint punctuation is followed by punctuation (as in source text)."
  },
  {
   "property": "C56",
   "status": "partial",
   "theorems": [
    "C56_macro_returns",
    "C56_item_means_lr1_refuted",
    "C56_lr1_means_item_refuted",
    "C56_item_iff_lr1_partial"
   ],
   "note": "Termination and causes of panics proved. The equivalence is proved for grammars with complete FIRST sets, productive labels and a first rule that does not mention its own label; in full false in both directions, with inputs of the macro as witnesses."
  },
  {
   "property": "C57",
   "status": "partial",
   "theorems": [
    "C57_recognition_is_linear",
    "C57_generated_is_linear_refuted",
    "C57_generated_is_linear_partial",
    "C57_emitted_is_linear_partial"
   ],
   "note": "Proved for the simulator. For generated parsers proved under the conditions of C41 (complete FIRST sets, or debug builds with enum terminals, or tokens that match one terminal each); in full false, since C41 is."
  },
  {
   "property": "C58",
   "status": "proved",
   "theorems": [
    "C58_errors_have_causes"
   ],
   "note": "Proved."
  },
  {
   "property": "C59",
   "status": "proved",
   "theorems": [
    "C59_text_names_the_token",
    "C59_texts_differ"
   ],
   "note": "Proved. The text of overlapping matchers shows the peeked Option, i.e. 'Token Some(..) matches', which the theorem states as it is."
  },
  {
   "property": "C60",
   "status": "partial",
   "theorems": [
    "C60_derive_for_type_refuted",
    "C60_derive_for_type_partial"
   ],
   "note": "Full statement false (finding): the parameters of a generic type are dropped, so the emitted impls do not compile. Proved to hold exactly for types without parameters."
  },
  {
   "property": "C61",
   "status": "partial",
   "theorems": [
    "C61_labels_round_trip_refuted",
    "C61_labels_round_trip_partial",
    "C61_fixed_set_is_a_set",
    "C61_fixed_map_is_a_map"
   ],
   "note": "Full statement false (finding): Label for u8 asserts id < u8::MAX, so the label 255 is not got back in debug builds. Everything else proved."
  },
  {
   "property": "C62",
   "status": "partial",
   "theorems": [
    "C62_item_is_well_typed_partial",
    "C62_or_patterns_refuted",
    "C62_generic_tokens_refuted",
    "C62_default_of_nothing_refuted",
    "C62_type_parameters_refuted"
   ],
   "note": "Full statement false in four ways (findings), each with a written grammar: or-patterns, token types with arguments, default constructors of !, types named I, B or E. Proved without these, with typing rules for the emitted fragment (Spec/Typing.v); moves and borrows are C67."
  },
  {
   "property": "C63",
   "status": "partial",
   "theorems": [
    "C63_meanings_are_values_of_trees",
    "C63_meaning_is_unique_partial",
    "C63_items_compute_meanings_partial",
    "C63_items_compute_meanings_refuted",
    "C63_meaning_is_unique_refuted"
   ],
   "note": "Full statement false (finding): with incomplete FIRST sets parsers reject inputs that have a meaning, and ambiguous grammars are accepted. Proved with complete FIRST sets; also needs defaults_bound (C34) and hygiene (C53). Which error is returned is stated for productive grammars; that the error of a failing constructor is returned needs no such condition."
  },
  {
   "property": "C64",
   "status": "proved",
   "theorems": [
    "C64_brainfck_is_accepted",
    "C64_brainfck"
   ],
   "note": "Proved, without conditions. The interpreter of the test is not modelled."
  },
  {
   "property": "C65",
   "status": "proved",
   "theorems": [
    "C65_grammars_are_accepted",
    "C65_calculator",
    "C65_error_messages"
   ],
   "note": "Proved, without conditions. Arithmetic of u32 wraps around, as in release builds."
  },
  {
   "property": "C66",
   "status": "proved",
   "theorems": [
    "C66_grammars_are_accepted",
    "C66_requests",
    "C66_non_lalr",
    "C66_letters"
   ],
   "note": "Proved, without conditions."
  },
  {
   "property": "C67",
   "status": "partial",
   "theorems": [
    "C67_item_owns_partial",
    "C67_captured_variable_refuted"
   ],
   "note": "Full statement false (finding): a constructor that names __peeked_val uses the peeked token after a pop. Proved for constructors that do not name variables of the emitted code, under the conditions of C62 on or-patterns, token types and default constructors. The rules (Spec/Ownership.v) are stricter than those of Rust."
  },
  {
   "property": "C68",
   "status": "partial",
   "theorems": [
    "C68_errors_of_failing_streams_partial",
    "C68_errors_of_failing_streams_refuted"
   ],
   "note": "Full statement false (finding): with incomplete FIRST sets the parser stops at a token of a sentence and does not see the stream's error. Proved with complete FIRST sets, under the conditions of C63; which error it is, is stated for productive grammars."
  },
  {
   "property": "C69",
   "status": "proved",
   "theorems": [
    "C69_grammars_are_accepted",
    "C69_simple",
    "C69_auto_into",
    "C69_fallible_ctor",
    "C69_into_error_type",
    "C69_add_mul",
    "C69_input_stream",
    "C69_failing_input_stream"
   ],
   "note": "Proved, without conditions. Arithmetic of u32 wraps around, as in release builds."
  },
  {
   "property": "C70",
   "status": "partial",
   "theorems": [
    "C70_results_are_explained_refuted",
    "C70_results_are_explained_partial",
    "C70_decided_sentences_are_evaluated_partial",
    "C70_unambiguous_sentences_are_decided",
    "C70_items_are_explained_partial"
   ],
   "note": "Full statement false (finding): with incomplete FIRST sets a sentence without doubtful tokens is rejected, which no reading explains. Proved with complete FIRST sets and productive nonterminals."
  },
  {
   "property": "C71",
   "status": "proved",
   "theorems": [
    "C71_grammars_are_accepted",
    "C71_token_pattern",
    "C71_disjoint_patterns"
   ],
   "note": "Proved. Patterns are known to the macros by their printed texts; the condition is that printing tells the patterns of the grammar apart, as Rust's does."
  },
  {
   "property": "C72",
   "status": "partial",
   "theorems": [
    "C72_notes_tell_the_part_partial",
    "C72_notes_are_true_refuted"
   ],
   "note": "Full statement false (finding): if the terminal option is followed by tokens that are no symbol, the message has the note 'Unexpected end of stream' although the stream has not ended (parse_grammar.rs:206-209). Which notes there are is proved for all inputs."
  },
  {
   "property": "C73",
   "status": "proved",
   "theorems": [
    "C73_complete_iff_obeys",
    "C73_early_grammars_complete",
    "C73_direct_is_early",
    "C73_labels_in_order"
   ],
   "note": "Proved. The class of grammars with early epsilon contains the class of C14; the criterion (complete iff the table obeys the rules) is exact."
  },
  {
   "property": "C74",
   "status": "partial",
   "theorems": [
    "C74_same_inputs_refuted",
    "C74_same_grammars_refuted",
    "C74_same_grammars_partial",
    "C74_same_inputs_partial"
   ],
   "note": "Full statement false (finding): by the FIRST bug, exchanging two rules after the first changes which inputs are accepted, and whether the grammar is accepted. Proved if the FIRST sets of both orders are complete, for grammars whose first rule does not mention its own label."
  },
  {
   "property": "C75",
   "status": "partial",
   "theorems": [
    "C75_set_text",
    "C75_set_texts_tell",
    "C75_kernel_text",
    "C75_kernel_texts_tell",
    "C75_fixed_map_text",
    "C75_byte_keys",
    "C75_byte_map_text_refuted",
    "C75_sparse_map_text",
    "C75_same_map_same_text_refuted"
   ],
   "note": "Full statement false (findings): the text of a sparse map depends on the order of insertions, and a map with all 256 bytes for keys panics when printed in debug builds (by the assertion in from_id, C61). Proved for sets and kernels, and for maps what their texts list."
  },
  {
   "property": "C76",
   "status": "partial",
   "theorems": [
    "C76_numberings_exist",
    "C76_same_meanings",
    "C76_same_results_refuted",
    "C76_same_grammars_refuted",
    "C76_same_results_partial",
    "C76_same_grammars_partial"
   ],
   "note": "Full statement false (finding): by the FIRST bug, exchanging two declarations after the first changes what the parser returns, and whether there is one. Proved if the FIRST sets of both orders are complete, no default constructor lacks its argument and bodies do not name local variables of the emitted code; that errors are the same, for grammars all of whose labels derive something. Meanings of inputs are the same without these conditions."
  },
  {
   "property": "C77",
   "status": "proved",
   "theorems": [
    "C77_names_do_not_matter"
   ],
   "note": "Proved for all injective renamings, with no condition on the grammar. Values of errors are compared, not their printed texts."
  },
  {
   "property": "C78",
   "status": "proved",
   "theorems": [
    "C78_labels_leave_no_trace"
   ],
   "note": "Proved for all inputs of the macro that are read, with no condition on the grammar. Texts of messages are not compared."
  },
  {
   "property": "C79",
   "status": "partial",
   "theorems": [
    "C79_written_twice_refuted",
    "C79_derives_itself_refuted",
    "C79_unproductive_refuted",
    "C79_rejected_partial",
    "C79_reported_partial",
    "C79_macro_partial"
   ],
   "note": "Full statement false (findings): by the FIRST bug, a grammar with a rule written twice and one with a label that derives itself get a parser; so does one where the label can only be used beside a label that derives nothing. Proved if FIRST sets are complete and every label derives something."
  },
  {
   "property": "C80",
   "status": "partial",
   "theorems": [
    "C80_programs",
    "C80_no_panic",
    "C80_nested_write_refuted",
    "C80_nested_endless_refuted",
    "C80_meaning_partial"
   ],
   "note": "Full statement false (finding, in test code): with nested loops, jumps go to the nearest bracket instead of the matching one. Proved for programs without nested loops; that no program panics, for all."
  },
  {
   "property": "C81",
   "status": "partial",
   "theorems": [
    "C81_fewer_rules_refuted",
    "C81_another_root_refuted",
    "C81_another_root_unproductive_refuted",
    "C81_fewer_rules_partial",
    "C81_fewer_sentences_partial",
    "C81_another_root_partial",
    "C81_another_root_sentences",
    "C81_macro_partial",
    "C81_macro_numberings_exist",
    "C81_macro_values_partial"
   ],
   "note": "Full statement false (findings): by the FIRST bug, dropping a rule of an accepted grammar can give one that is rejected, and so can taking another label for the root; the latter also where a label derives nothing. Proved if the FIRST sets of the whole grammar are complete, and for another root if every label derives something. With grammar!, also if the rules and terminals that are left are good (C56)."
  },
  {
   "property": "C82",
   "status": "proved",
   "theorems": [
    "C82_first_exact",
    "C82_first_same",
    "C82_parser_same",
    "C82_accepted_iff_lr1",
    "C82_accepted_iff",
    "C82_total",
    "C82_errors",
    "C82_accepts_no_more",
    "C82_recognises",
    "C82_unambiguous"
   ],
   "note": "Proved. The repaired functions (Spec/Repair.v) differ from those of the model in one statement and are no model of code that exists; what is claimed of the code is that its FIRST tables, parsers and errors agree with theirs exactly where its FIRST sets are complete. Acceptance and recognition are stated for epsilon at the ends of rules (next_node, C01) and a first rule that does not mention its own label (C04)."
  },
  {
   "property": "C83",
   "status": "partial",
   "theorems": [
    "C83_framed_refuted",
    "C83_framed_partial",
    "C83_used_token_refuted",
    "C83_unframed_partial",
    "C83_sentences_refuted",
    "C83_sentences_partial",
    "C83_sentences_back_partial",
    "C83_repaired"
   ],
   "note": "Partial: false in full by the FIRST bug (C83_framed_refuted, C83_sentences_refuted); proved where the FIRST sets are complete, those of the grammar for acceptance between tokens and for the sentences found in its brackets, those of the larger grammar the other way. That the closing token has to be new is needed (C83_used_token_refuted). C83_repaired: without the FIRST bug no condition on FIRST sets is needed. Stated for epsilon at the ends of rules (next_node, C01) and a first rule that does not use its own label (C04)."
  },
  {
   "property": "C84",
   "status": "partial",
   "theorems": [
    "C84_operators_as_written",
    "C84_operators_told",
    "C84_symbols_told",
    "C84_groups_refuted",
    "C84_groups_partial",
    "C84_conflicts_refuted",
    "C84_conflicts_partial",
    "C84_conflict_token",
    "C84_macro_conflicts_partial"
   ],
   "note": "Operators and symbols: proved, for any way of printing streams of tokens. Full statement refuted in two places: groups in braces are shown in two pairs of braces (symbol.rs:218), and in the text of a conflict a token whose text is a dollar sign looks like the end of the stream (vocabulary.rs:68-76). Proved for parentheses and brackets, and for conflicts if the texts of tokens are distinct and are not those of the end of the stream and of epsilon. For grammar!, missing is only the case that a pattern is printed as the wildcard `..` is."
  },
  {
   "property": "C85",
   "status": "proved",
   "theorems": [
    "C85_prints",
    "C85_prints_only",
    "C85_ends",
    "C85_same_output",
    "C85_main",
    "C85_language",
    "C85_one_tree",
    "C85_values"
   ],
   "note": "Proved in full. The message of a failing unwrap does not show the error in the model."
  }
 ]
}