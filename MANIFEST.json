{
 "claims": [
  {
   "property": "C01",
   "status": "proved",
   "theorems": [
    "C01_plain_process_is_cursor"
   ],
   "note": "every call sequence over every text"
  },
  {
   "property": "C02",
   "status": "proved",
   "theorems": [
    "C02_nested_drain",
    "C02_split_exists",
    "C02_split_unique",
    "C02_any_history",
    "C02_every_history"
   ],
   "note": "stops_between characterises the yielded prefix; it exists and is unique for every text; C02_any_history covers every sequence of calls"
  },
  {
   "property": "C03",
   "status": "proved",
   "theorems": [
    "C03_peek_next_exact",
    "C03_covered",
    "C03_peek_predicts_next_refuted",
    "C03_when_peek_misleads"
   ],
   "note": "Exact characterisation over every simulated stream; the naive unconditional claim is refuted by a witness."
  },
  {
   "property": "C04",
   "status": "proved",
   "theorems": [
    "C04_stop_without_escape_exact",
    "C04_stop_without_escape_refuted"
   ],
   "note": "Exact behaviour for every text; the naive claim (it stops) is refuted."
  },
  {
   "property": "C05",
   "status": "proved",
   "theorems": [
    "C05_parse_whitespace",
    "maximal_run_exists",
    "processes_behave_like_texts",
    "nested_start_behaves_like_text"
   ],
   "note": "Full statement proved."
  },
  {
   "property": "C06",
   "status": "proved",
   "theorems": [
    "C06_parse_usize_value",
    "C06_parse_usize_roundtrip",
    "C06_parse_usize_end",
    "C06_parse_usize_no_digit",
    "maximal_run_exists"
   ],
   "note": "the cases cover every text (maximal_run_exists)"
  },
  {
   "property": "C07",
   "status": "proved",
   "theorems": [
    "C07_parse_isize_nonnegative",
    "C07_parse_isize_negative",
    "C07_parse_isize_roundtrip",
    "C07_parse_isize_errors"
   ],
   "note": "Full statement proved."
  },
  {
   "property": "C08",
   "status": "proved",
   "theorems": [
    "C08_parse_var_name",
    "C08_parse_var_name_errors"
   ],
   "note": "Full statement proved."
  },
  {
   "property": "C09",
   "status": "proved",
   "theorems": [
    "C09_parse_symbol"
   ],
   "note": "Full statement proved."
  },
  {
   "property": "C10",
   "status": "proved",
   "theorems": [
    "C10_parse_terminal_ok",
    "C10_parse_terminal_unterminated",
    "C10_cases_exhaustive",
    "C10_result_is_quoted_body",
    "C10_lone_quote_inexpressible"
   ],
   "note": "Full statement proved."
  },
  {
   "property": "C11",
   "status": "proved",
   "theorems": [
    "C11_texts_are_read",
    "C11_closed_grammars_accepted",
    "C11_without_ignore",
    "C11_only_texts_are_accepted",
    "C11_description_determines"
   ],
   "note": "Every rendering of an abstract grammar is read and yields the data describing it (then the IGNORE weaving); the only failure is an IGNORE element needing an undefined nonterminal. The converse and uniqueness of the description are proved too. For the four shipped VMs; char tables assumed disjoint (white space vs names)."
  },
  {
   "property": "C12",
   "status": "proved",
   "theorems": [
    "C12_total_and_complete"
   ],
   "note": "For the four shipped VMs."
  },
  {
   "property": "C13",
   "status": "proved",
   "theorems": [
    "C13_merged",
    "C13_joined"
   ],
   "note": "Full statement proved."
  },
  {
   "property": "C14",
   "status": "proved",
   "theorems": [
    "C14_global_ignore_refuted"
   ],
   "note": "For every text whose first non-blank char is '$', every VM and hash order; the theorem's name recalls the expectation it refutes."
  },
  {
   "property": "C15",
   "status": "proved",
   "theorems": [
    "C15_texts",
    "C15_edited_rules",
    "C15_order_irrelevant"
   ],
   "note": "Full statement proved."
  },
  {
   "property": "C16",
   "status": "proved",
   "theorems": [
    "C16_derivation_check",
    "C16_decides"
   ],
   "note": "Full statement proved."
  },
  {
   "property": "C17",
   "status": "proved",
   "theorems": [
    "C17_error_position"
   ],
   "note": "Full statement proved."
  },
  {
   "property": "C18",
   "status": "proved",
   "theorems": [
    "C18_table",
    "C18_bijection",
    "C18_get_or_add",
    "C18_stable"
   ],
   "note": "Full statement proved."
  },
  {
   "property": "C19",
   "status": "proved",
   "theorems": [
    "C19_alternatives_after_set",
    "C19_alternatives_no_set",
    "C19_instructions",
    "C19_no_instructions",
    "C19_rule_exists"
   ],
   "note": "Full statement proved."
  },
  {
   "property": "C20",
   "status": "proved",
   "theorems": [
    "C20_api_grammars_well_formed",
    "C20_first_sets_exact",
    "C20_partial_sets_exact"
   ],
   "note": "wf_grammar: element vectors of equal length, rules only on nonterminals (met by API histories that give rules to nonterminals)."
  },
  {
   "property": "C21",
   "status": "proved",
   "theorems": [
    "C21_returns_iff",
    "C21_terminates",
    "C21_divergence_is_left_recursion",
    "C21_left_recursion_diverges",
    "C21_depth_irrelevant",
    "C21_returns"
   ],
   "note": "Fuel bounds the recursion depth; size(rules)+2 always suffices without left recursion; with left recursion every fuel diverges."
  },
  {
   "property": "C22",
   "status": "proved",
   "theorems": [
    "C22_follow_sets_exact",
    "C22_least_solution",
    "C22_succeeds_iff"
   ],
   "note": "Under fits_memory (64-bit address space). FOLLOW chars are collected from every nonterminal with a rule, the end marker from start."
  },
  {
   "property": "C23",
   "status": "proved",
   "theorems": [
    "C23_terminates",
    "C23_terminates_elements",
    "C23_rounds_irrelevant"
   ],
   "note": "Rounds <= nonterminals x members + 1, for any finite set containing all FOLLOW members."
  },
  {
   "property": "C24",
   "status": "proved",
   "theorems": [
    "C24_hash_order_irrelevant",
    "C24_texts"
   ],
   "note": "Both entry points. Texts below 2^63 chars."
  },
  {
   "property": "C25",
   "status": "proved",
   "theorems": [
    "C25_steuer_sets",
    "C25_missing_follow"
   ],
   "note": "Full statement proved."
  },
  {
   "property": "C26",
   "status": "proved",
   "theorems": [
    "C26_selection_table",
    "C26_conflict_is_real",
    "C26_conflict_iff",
    "C26_construction",
    "C26_texts"
   ],
   "note": "The conflict-iff form assumes no alternative starts with the empty terminal, where the code panics instead (part of C26_construction)."
  },
  {
   "property": "C27",
   "status": "proved",
   "theorems": [
    "C27_accepted_is_LL1"
   ],
   "note": "Full statement proved."
  },
  {
   "property": "C28",
   "status": "proved",
   "theorems": [
    "C28_LL1_accepted",
    "C28_every_LL1_grammar_accepted_refuted",
    "C26_construction"
   ],
   "note": "Sufficient condition proved; a concrete LL(1) grammar outside it is rejected under every hash order; C26_construction is the exact condition."
  },
  {
   "property": "C29",
   "status": "proved",
   "theorems": [
    "C29_no_dangling_nonterminals",
    "C29_parse_fails_only_on_text"
   ],
   "note": "For every constructed parser and VM that does not edit the tree: parse errors are only UnexpectedChar/EndOfChars; it panics only if the VM's own instruction panics."
  },
  {
   "property": "C30",
   "status": "proved",
   "theorems": [
    "C30_derivation_tree"
   ],
   "note": "Derivation tree of the consumed prefix, seen through get_by_path_or_none and equal to the tree of the add_node calls; assumes the VM does not edit the tree (proved for the four shipped VMs)."
  },
  {
   "property": "C31",
   "status": "proved",
   "theorems": [
    "C31_sentences_are_parsed"
   ],
   "note": "Also says that the instructions decide between success and panic."
  },
  {
   "property": "C32",
   "status": "proved",
   "theorems": [
    "C32_unambiguous"
   ],
   "note": "Full statement proved."
  },
  {
   "property": "C33",
   "status": "proved",
   "theorems": [
    "C33_terminates"
   ],
   "note": "Depth bound (length+1)*rules; larger bounds give the same result."
  },
  {
   "property": "C34",
   "status": "proved",
   "theorems": [
    "C30_derivation_tree",
    "C34_whole_sentences_when_ends_checked",
    "C34_whole_sentences_only_refuted",
    "C31_sentences_are_parsed"
   ],
   "note": "Prefix statement, refutation of the stronger one, and the grammar condition under which the whole script is read (met by the repository's calculator grammars)."
  },
  {
   "property": "C35",
   "status": "proved",
   "theorems": [
    "C35_first_offending_char"
   ],
   "note": "Stronger than stated: before the position a viable prefix, with the offending char not."
  },
  {
   "property": "C36",
   "status": "proved",
   "theorems": [
    "C36_actions_in_post_order"
   ],
   "note": "Full statement proved."
  },
  {
   "property": "C37",
   "status": "proved",
   "theorems": [
    "C37_effects_of_completed_nodes",
    "C37_panics_of_completed_nodes"
   ],
   "note": "Full statement proved."
  },
  {
   "property": "C38",
   "status": "proved",
   "theorems": [
    "C38_parse_begins_at_start",
    "C38_start_idx_honoured_refuted"
   ],
   "note": "Exact behaviour for every parser and start_idx; the naive claim is refuted."
  },
  {
   "property": "C39",
   "status": "proved",
   "theorems": [
    "C39_hash_order_irrelevant"
   ],
   "note": "Parsers built from parser data under two hash orders."
  },
  {
   "property": "C40",
   "status": "proved",
   "theorems": [
    "C40_add_only_forest",
    "C40_refused_add_changes_nothing"
   ],
   "note": "arbitrary add_node call sequences with arbitrary parent ids; all six queries answered as by the ordered forest"
  },
  {
   "property": "C41",
   "status": "proved",
   "theorems": [
    "C41_removed_branches",
    "C41_remove_twice"
   ],
   "note": "any number of removals after any add-only history"
  },
  {
   "property": "C42",
   "status": "proved",
   "theorems": [
    "C42_add_after_remove_refuted",
    "C42_endless_children_refuted"
   ],
   "note": "For every add-only history followed by any removals, and a witness history for the endless loop."
  },
  {
   "property": "C43",
   "status": "proved",
   "theorems": [
    "C43_ids_never_reused",
    "C43_id_determines_data"
   ],
   "note": "arbitrary interleavings with arbitrary ids"
  },
  {
   "property": "C44",
   "status": "proved",
   "theorems": [
    "C44_history",
    "C44_defined_calls",
    "C44_bad_source_panics",
    "C44_other_sources",
    "C44_entries_are_permanent"
   ],
   "note": "histories of the abstract graph; the only excluded calls are an unknown source (panics) and the id after usize::MAX"
  },
  {
   "property": "C45",
   "status": "proved",
   "theorems": [
    "C45_graft",
    "C45_paths",
    "C45_nested",
    "C45_nested_defined"
   ],
   "note": "C45_nested: grafts nested in any order with calls in between"
  },
  {
   "property": "C46",
   "status": "proved",
   "theorems": [
    "C46_history",
    "C46_calls_total"
   ],
   "note": "up to 2^64 names"
  },
  {
   "property": "C47",
   "status": "proved",
   "theorems": [
    "C47_index_exact",
    "C47_error_for_every_bad_index_refuted"
   ],
   "note": "Exact behaviour for every graph and index; the naive claim is refuted."
  },
  {
   "property": "C48",
   "status": "proved",
   "theorems": [
    "C48_simple_calculator",
    "C48_evaluates",
    "C48_error_register",
    "C48_only_evaluation"
   ],
   "note": "Parser read from examples/simple_stack_based_math.txt, any unsigned program, any VM state, debug and release builds; the accepted scripts are exactly the programs. Literals of at most 20 digits in debug builds (2^32 in release) evaluate to their value."
  },
  {
   "property": "C49",
   "status": "proved",
   "theorems": [
    "C49_instruction_text_read",
    "C49_only_instruction_text",
    "C49_every_list_has_a_text",
    "C49_unknown_dropped"
   ],
   "note": "stack_reads (SpecRules) is the instruction text; C49_only_instruction_text is the converse."
  },
  {
   "property": "C50",
   "status": "proved",
   "theorems": [
    "C50_stack_calculator",
    "C50_evaluates",
    "C48_error_register",
    "C48_only_evaluation",
    "C50_long_literals_refuted"
   ],
   "note": "Parser read from examples/stack_based_math.txt, signed words; the accepted scripts are exactly the programs. C50_long_literals_refuted: a 20-digit literal outside isize is silently misread in debug builds, so the converse needs literals of at most 19 digits."
  },
  {
   "property": "C51",
   "status": "proved",
   "theorems": [
    "C51_simple_machine",
    "C51_stack_machine",
    "C51_step_is_deterministic",
    "C51_empty_stack",
    "C51_simple_panics_iff_overflow",
    "C51_stack_panics_iff_overflow",
    "C51_release_parse_never_panics",
    "C51_fresh_states"
   ],
   "note": "Both machines follow one relational machine (SpecVm.v) for every instruction, state and node of every tree grown by add_node; panic iff debug build and overflow; a release-mode parse never panics."
  },
  {
   "property": "C52",
   "status": "proved",
   "theorems": [
    "C52_counting",
    "C52_sections",
    "C52_texts",
    "C52_fresh_counter"
   ],
   "note": "C52_counting for parser data (counts the instructions of the inner nodes); C52_sections/C52_texts from rule text: exactly the inner nodes whose name is first defined with braces, with the overflow behaviour of both build modes."
  },
  {
   "property": "C53",
   "status": "proved",
   "theorems": [
    "C53_null_state",
    "C53_any_brace_text",
    "C53_rule_with_braces"
   ],
   "note": "C53_null_state is for parsers built from parser data, which every accepted text gives (C57)."
  },
  {
   "property": "C54",
   "status": "proved",
   "theorems": [
    "C54_api_is_text"
   ],
   "note": "The calls of examples/rust_defined_rules.rs as a history, the text of examples/stack_based_math.txt verbatim; any Unicode tables, hash orders, overflow mode."
  },
  {
   "property": "C55",
   "status": "proved",
   "theorems": [
    "C55_counting_braces"
   ],
   "note": "Full statement proved."
  },
  {
   "property": "C56",
   "status": "proved",
   "theorems": [
    "C56_same_results",
    "C56_same_buildable",
    "C56_texts",
    "C56_moved_rules_say_the_same",
    "C56_same_meaning"
   ],
   "note": "C56_same_results/C56_same_buildable for parser data (names unique, start element called start); C56_texts for rule texts without IGNORE overrides; C56_same_meaning for all rule texts: what matters is only what each name says (SpecLanguage.v) after definitions are joined and ignored elements put in place, so writing an IGNORE out changes nothing. Non-vacuity: C56_example, C56_meaning_example."
  },
  {
   "property": "C57",
   "status": "proved",
   "theorems": [
    "C57_sentences_are_parsed",
    "C57_only_sentences",
    "C57_unambiguous",
    "C57_errors"
   ],
   "note": "End to end from rule text (SpecLanguage.v: names only, no element numbers). Sentences of the grammar as written are parsed to their tree; errors assume productive nonterminals for the viable-prefix half."
  },
  {
   "property": "C58",
   "status": "proved",
   "theorems": [
    "C58_buildable_iff_parsable",
    "C58_failures"
   ],
   "note": "Iff between new_from_text returning a parser and the name-level condition parsable (SpecLanguage.v); C58_failures: what the call does otherwise (panic; stack overflow for left recursion)."
  },
  {
   "property": "C59",
   "status": "proved",
   "theorems": [
    "C59_expected_listing",
    "C59_with_empty_texts_refuted",
    "C59_reason",
    "C59_one_reason"
   ],
   "note": "The listing equals the possible continuations for grammars without empty texts, as the property says; the refuted theorem shows that both directions can fail otherwise. C59_reason and C59_one_reason say for all grammars what the listing contains."
  },
  {
   "property": "C60",
   "status": "proved",
   "theorems": [
    "C60_messages_tell_errors_apart",
    "C60_listing_readable",
    "C60_rule_messages_refuted",
    "C60_tree_messages",
    "C60_graph_messages",
    "C60_grammar_messages"
   ],
   "note": "Display texts modelled in Display.v."
  },
  {
   "property": "C61",
   "status": "proved",
   "theorems": [
    "C61_accepted_scripts",
    "C61_sentence_prefixes"
   ],
   "note": "Exact acceptance condition by names; with no empty texts: exactly the scripts with a sentence prefix. Non-vacuity: C61_example."
  },
  {
   "property": "C62",
   "status": "proved",
   "theorems": [
    "C62_exit_status",
    "C62_sentences"
   ],
   "note": "main.rs with arguments and files as inputs. Non-vacuity: C62_example."
  },
  {
   "property": "C63",
   "status": "proved",
   "theorems": [
    "C63_crate_vms",
    "C63_contract_suffices",
    "C63_collecting_vm",
    "C63_lazy_vm",
    "C63_tree_editing_refuted"
   ],
   "note": "The contract is SpecContract.v; the theorems of C11-C17, C24, C26, C56-C61 are stated for every supported VM. The last theorem shows the contract's clause about the tree is needed."
  },
  {
   "property": "C64",
   "status": "proved",
   "theorems": [
    "C64_the_examples",
    "C64_simple_example",
    "C64_stack_example",
    "C64_api_example",
    "C64_no_rule_file"
   ],
   "note": "The mains of examples/*.rs are modelled in Examples.v, with the Debug rendering of the error line."
  },
  {
   "property": "C65",
   "status": "proved",
   "theorems": [
    "C65_program_or_broken",
    "C65_not_both",
    "C65_one_place",
    "C65_longest_prefix",
    "C65_simple_calculator_errors",
    "C65_stack_calculator_errors",
    "C65_api_calculator"
   ],
   "note": "broken (SpecCalc.v) is stated without the grammar; existence and uniqueness of the place are proved separately."
  },
  {
   "property": "C66",
   "status": "proved",
   "theorems": [
    "C66_simple_sessions",
    "C66_stack_sessions",
    "C66_session_of_programs"
   ],
   "note": "Full statement proved."
  },
  {
   "property": "C67",
   "status": "proved",
   "theorems": [
    "C67_longest_viable_prefix",
    "C67_reported_char",
    "C67_crate_vms"
   ],
   "note": "begins (take j t) iff j <= position, for every j; '#' after other elements is the one error raised behind the offending char. Errors without position (IGNORE of an undefined name, out-of-range number of the StackVm) are outside."
  },
  {
   "property": "C68",
   "status": "proved",
   "theorems": [
    "C68_debug_tells_errors_apart",
    "C68_debug_tells_trees_apart",
    "C68_debug_is_printable",
    "C68_debug_tells_data_apart"
   ],
   "note": "Debug output of errors and trees is injective and printable, for every table of printable chars."
  },
  {
   "property": "C69",
   "status": "proved",
   "theorems": [
    "C69_reports_the_call",
    "C69_panic_names_a_defect",
    "C69_parser_data",
    "C69_other_texts",
    "C69_message_tells"
   ],
   "note": "The report functions keep what unwrap prints and agree with the calls (C69_reports_the_call)."
  },
  {
   "property": "C70",
   "status": "proved",
   "theorems": [
    "C70_one_char_ahead",
    "C70_errors_are_final",
    "C70_accepted_prefix"
   ],
   "note": "For every parser value and VM; the first theorem also says that a reported position is the number of chars read."
  },
  {
   "property": "C71",
   "status": "proved",
   "theorems": [
    "C71_tree_size",
    "C71_instructions",
    "C71_exponential_in_the_grammar"
   ],
   "note": "metered vm is vm with an instruction counter; that it behaves as vm is part of C71_instructions."
  },
  {
   "property": "C72",
   "status": "proved",
   "theorems": [
    "C72_make_memberset",
    "C72_make_memberset_no_empty",
    "C72_conversion",
    "C72_conversion_injective",
    "C72_conversion_onto",
    "C72_helpers_agree",
    "C72_texts",
    "C72_texts_with_empty",
    "C72_conversion_keeps_texts",
    "C72_the_texts"
   ],
   "note": "The hash sets are finite sets (gset)."
  },
  {
   "property": "C73",
   "status": "proved",
   "theorems": [
    "C73_same_buildable",
    "C73_same_analysis",
    "C73_by_name",
    "C73_texts",
    "C73_texts_buildable",
    "C73_crate_sections_end",
    "C73_null_vm_checks_syntax",
    "C73_calculators",
    "C73_without_instructions"
   ],
   "note": "Relates two runs with different VMs: same elements and productions (API), same rules by name, same syntax (texts). 'finished' = neither panic nor out of fuel; C73_null_vm_checks_syntax has the one-sided form (only a panic of the other VM is excepted). Errors agree up to the order of an expected listing when hash orders differ. Buildability of texts assumes no undefined name is ignored (C16); sections_end holds for the four VMs of the crate."
  },
  {
   "property": "C74",
   "status": "proved",
   "theorems": [
    "C74_same_buildable",
    "C74_same_parse",
    "C74_texts"
   ],
   "note": "C74_same_parse is literal equality of the whole result. A VM that chooses instructions by rule name (SimpleStackVm) reads other instructions after renaming; C74_texts is about texts with the same instructions, C73 about different ones."
  },
  {
   "property": "C75",
   "status": "proved",
   "theorems": [
    "C75_same_language",
    "C75_smaller_buildable",
    "C75_accepted_scripts",
    "C75_sentences",
    "C75_error_positions",
    "C75_unused_rules_do_not_matter_refuted"
   ],
   "note": "Adding rules for new names: same language of old names, accepted scripts stay accepted with the same tree and state. That unused rules change nothing is refuted by two concrete texts."
  },
  {
   "property": "C76",
   "status": "proved",
   "theorems": [
    "C76_values",
    "C76_value_of_the_script",
    "C76_blanks_in_front_are_passed_on_refuted"
   ],
   "note": "For every grammar text and every attribute function, the table of a table-keeping VM ends with the values of SpecAttr.meaning for every node; the readme's leading blank is refuted."
  },
  {
   "property": "C77",
   "status": "proved",
   "theorems": [
    "C77_hints_fit",
    "C77_progress",
    "C77_crate_vms",
    "C77_all_continuations_refuted"
   ],
   "note": "custom VMs: hypothesis vm_hints on the VM's own hints; the expectation that the hint lists every continuation is refuted"
  },
  {
   "property": "C78",
   "status": "proved",
   "theorems": [
    "C78_refinement",
    "C78_simulation",
    "C78_parser_data",
    "C78_texts",
    "C78_two_at_once"
   ],
   "note": "vm_follows: on related instructions and states the second VM does what the first does; C78_refinement: every pair of parser values with the same tables; C78_simulation: panics too; C78_parser_data: parsers built from data with the same elements and productions; C78_texts: from rule texts that differ in the instruction sections only, with two hash orders (errors up to the order of a listing); C78_two_at_once: the product VM"
  },
  {
   "property": "C79",
   "status": "proved",
   "theorems": [
    "C79_instructions",
    "C79_construction",
    "C79_parsing",
    "C79_user_vms",
    "C79_graphs",
    "C79_programs",
    "C79_always_the_same_refuted"
   ],
   "note": "as_debug o o': unless o is a panic o' is the same; C79_always_the_same_refuted: the hypothesis is needed (counter at usize::MAX)"
  },
  {
   "property": "C80",
   "status": "proved",
   "theorems": [
    "C80_any_start",
    "C80_renamed_text",
    "C80_parts_of_sentences",
    "C80_unused_refuted"
   ],
   "note": "API level: rules must have an alternative each (texts always give one). Text level: all texts accepted by the crate with the VMs of the crate; [name_reached] is occurrence in a form derived from start."
  },
  {
   "property": "C81",
   "status": "proved",
   "theorems": [
    "C81_replace",
    "C81_ignored_text",
    "C81_only_ignored_text",
    "C81_two_parsers"
   ],
   "note": "[padded] is the relation between trees of the grammar without overrides and trees with ignored text; texts accepted by the crate, VMs of the crate or meeting the contract."
  },
  {
   "property": "C82",
   "status": "proved",
   "theorems": [
    "C82_sentences_are_escaped",
    "C82_quotes",
    "C82_escaped_texts_are_parsed",
    "C82_api_grammars_refuted"
   ],
   "note": "Exact: the sentences of grammar texts are the escaped texts. Texts of up to 2^62 chars for the converse. The last theorem shows that the limit is one of rule texts, not of grammars."
  },
  {
   "property": "C83",
   "status": "proved",
   "theorems": [
    "C83_same_texts",
    "C83_accepted",
    "C83_trees",
    "C83_only_sentences",
    "C83_same_effects",
    "C83_blind_vms",
    "C83_writing_out_refuted"
   ],
   "note": "parts_named relates the alternatives with IGNORE elements in place (says); a new name is allowed in several places for everything but acceptance."
  },
  {
   "property": "C84",
   "status": "proved",
   "theorems": [
    "C84_named_ll1_accepted",
    "C84_accepted_is_ll1",
    "C84_every_ll1_grammar",
    "C84_exact"
   ],
   "note": "Every LL(1) grammar text has an accepted text with the same sentences (below 2^63 chars); with a name for every alternative acceptance is equivalent to LL(1)."
  },
  {
   "property": "C85",
   "status": "proved",
   "theorems": [
    "C85_fewer_accepted",
    "C85_accepted_scripts",
    "C85_sentences",
    "C85_errors_no_later",
    "C85_left_out",
    "C85_appended"
   ],
   "note": "Smaller accepted text; old scripts parse the same in the larger grammar; errors no later; C85_left_out says what leaving out alternatives means for texts with ignore instructions."
  },
  {
   "property": "C86",
   "status": "proved",
   "theorems": [
    "C86_first_counter",
    "C86_first_calls",
    "C86_follow_counter",
    "C86_follow_edges",
    "C86_follow_edges_elements"
   ],
   "note": "Counted versions of the functions with proofs that counting does not change the outcome; reading the rule text and marking the graph (loops over the right sides) are not counted."
  },
  {
   "property": "C87",
   "status": "proved",
   "theorems": [
    "C87_either_accepted",
    "C87_in_turn_accepted",
    "C87_repeated_accepted",
    "C87_languages",
    "C87_either_parsed",
    "C87_in_turn_parsed",
    "C87_repeated_parsed"
   ],
   "note": "Acceptance of start -> a | b, start -> a b and start -> a start | # characterised exactly from the parts; languages are union, concatenation, repetition; trees and states from those of the parts' parsers. in_turn/repeated effects for a start rule without instructions and VMs that look only downwards (the crate's four do, C88_vms_look_down)."
  },
  {
   "property": "C88",
   "status": "proved",
   "theorems": [
    "C88_vms_look_down",
    "C88_state_after_a_parse",
    "C88_sentences",
    "C88_parts",
    "C88_equal_parts",
    "C88_ignored_text"
   ],
   "note": "effect is a structural fold over the derivation; proved equal to what parse leaves; all four VMs of the crate satisfy the hypothesis."
  },
  {
   "property": "C89",
   "status": "proved",
   "theorems": [
    "C89_accepted",
    "C89_same_language",
    "C89_whole_scripts"
   ],
   "note": "The repair of C34: exactly the whole sentences are accepted, with the same state; Err exactly on non-sentences unless an instruction panics."
  },
  {
   "property": "C90",
   "status": "proved",
   "theorems": [
    "C90_automata",
    "C90_errors"
   ],
   "note": "C90_errors needs a trim automaton (from every state an accepting one can be reached)."
  },
  {
   "property": "C91",
   "status": "proved",
   "theorems": [
    "C91_announced"
   ],
   "note": "Full statement proved."
  },
  {
   "property": "C92",
   "status": "proved",
   "theorems": [
    "C92_messages",
    "C92_debug",
    "C92_debug_data",
    "C92_panics"
   ],
   "note": "The {:?} of String and char (escapes) is the subject of C68; here it is used as it is."
  },
  {
   "property": "C93",
   "status": "proved",
   "theorems": [
    "C93_texts",
    "C93_null_and_counting"
   ],
   "note": "recoded_result relates trees, errors (position, char found, listing) and VM states of the two parses. same_error (C39, C56, C73, C74) now says that the listings consist of the same set members, not only of the same strings."
  },
  {
   "property": "C94",
   "status": "proved",
   "theorems": [
    "C94_optional_accepted",
    "C94_separated_accepted",
    "C94_languages",
    "C94_optional_parsed",
    "C94_separated_parsed"
   ],
   "note": "The part is any closed set of rules with an entry name; nullable and 'goes on' are the relations over the rules already used for C87. For what the parsers do, the rule for the rest of the list has no instructions, and the VM looks only at the node's subtree (true of the four VMs of the repository, C88)."
  },
  {
   "property": "C95",
   "status": "proved",
   "theorems": [
    "C95_accepted",
    "C95_same_texts",
    "C95_scripts",
    "C95_same_effects",
    "C95_ignored_refuted"
   ],
   "note": "C95_ignored_refuted is the last sentence: with an IGNORE override the cut matters."
  },
  {
   "property": "C96",
   "status": "proved",
   "theorems": [
    "C96_accepted",
    "C96_language",
    "C96_parsed"
   ],
   "note": "The states are for start rules without instructions."
  },
  {
   "property": "C97",
   "status": "proved",
   "theorems": [
    "C97_same_texts",
    "C97_rejected",
    "C97_parsed"
   ],
   "note": "Full statement proved."
  },
  {
   "property": "C98",
   "status": "proved",
   "theorems": [
    "C98_same_texts",
    "C98_rejected",
    "C98_parsed"
   ],
   "note": "Full statement proved."
  },
  {
   "property": "C99",
   "status": "proved",
   "theorems": [
    "C99_accepted",
    "C99_part",
    "C99_language",
    "C99_parsed"
   ],
   "note": "C99_language covers exactly the notions the acceptance conditions of C87/C94/C96 are stated in, so those theorems apply to the embedded part; the new start rule has no instructions in C99_parsed"
  },
  {
   "property": "C100",
   "status": "proved",
   "theorems": [
    "C100_accepted",
    "C100_language",
    "C100_parsed",
    "C100_only",
    "C100_unambiguous",
    "C100_written",
    "C100_stack_instructions"
   ],
   "note": "Acceptance decided by recursion on the expression; texts, effects, uniqueness; every writable expression has a text."
  },
  {
   "property": "C101",
   "status": "proved",
   "theorems": [
    "C101_end",
    "C101_decides",
    "C101_matcher"
   ],
   "note": "The fuel of parse is the model's; C101_decides shows it suffices."
  },
  {
   "property": "C102",
   "status": "proved",
   "theorems": [
    "C102_depth",
    "C102_more_room",
    "C102_without_recursion",
    "C102_recursion",
    "C102_every_stack_exhausted",
    "C102_lists"
   ],
   "note": "Diverge at a given fuel means: more activations of parse_production than fuel at a time. Finding: no script-independent stack bound exists for recursive grammars; lists recurse once per member."
  },
  {
   "property": "C103",
   "status": "proved",
   "theorems": [
    "C103_same",
    "C103_accepted",
    "C103_linear",
    "C103_lists"
   ],
   "note": "parse_reads is a copy of the model's parse with a counter; C103_same ties the two. The bound is stated for parses that return Ok or Err (a VM that panics stops the parse)."
  },
  {
   "property": "C104",
   "status": "proved",
   "theorems": [
    "C104_longest_beginning",
    "C104_unfinished",
    "C104_typing",
    "C104_wrong_char",
    "C104_without_texts_refuted"
   ],
   "note": "The condition that every name stands for some text is needed: C104_without_texts_refuted."
  },
  {
   "property": "C105",
   "status": "proved",
   "theorems": [
    "C105_returned",
    "C105_instructions"
   ],
   "note": "Full: returned tree and every call of execute."
  },
  {
   "property": "C106",
   "status": "proved",
   "theorems": [
    "C106_continuations",
    "C106_either_or",
    "C106_either_or_scripts",
    "C106_dangling"
   ],
   "note": "Full. The scripts version is stated for NullVm (by C73 the VM does not influence what is accepted); C106_example has the contrast a^n b^n."
  },
  {
   "property": "C107",
   "status": "proved",
   "theorems": [
    "C107_reached",
    "C107_same_sentences",
    "C107_accepted_refuted"
   ],
   "note": "Full. C107_accepted_refuted is the exception named in the statement."
  },
  {
   "property": "C108",
   "status": "proved",
   "theorems": [
    "C108_same_part",
    "C108_again"
   ],
   "note": "Full statement proved."
  },
  {
   "property": "C109",
   "status": "proved",
   "theorems": [
    "C109_found",
    "C109_accepts_anything",
    "C109_repeated_parts",
    "C109_long_sentences",
    "C109_bounded"
   ],
   "note": "Finding: a grammar without any sentence, such as start->\"1\"start;, yields a parser without complaint; that parser refuses every script."
  },
  {
   "property": "C110",
   "status": "proved",
   "theorems": [
    "C110_written_out",
    "C110_reduced",
    "C110_reduced_parser",
    "C110_trailing_refuted"
   ],
   "note": "the rewritten text is assumed to be shorter than 2^63 chars (it is given, but its length is not bounded in terms of the old one); the last clause is refuted by a concrete pair of texts"
  },
  {
   "property": "C111",
   "status": "proved",
   "theorems": [
    "C111_suite",
    "C111_tested"
   ],
   "note": "fewer_alternatives (SpecFewer.v): each alternative of the smaller grammar is one of the larger"
  },
  {
   "property": "C112",
   "status": "proved",
   "theorems": [
    "C112_determined",
    "C112_same_results",
    "C112_none_to_spare"
   ],
   "note": "every_part_used: SpecClean.v; same_trees: SpecSuite.v; same_syntax: SpecSyntax.v"
  },
  {
   "property": "C113",
   "status": "proved",
   "theorems": [
    "C113_failed_parse"
   ],
   "note": "For all supported VMs and all scripts without accepted prefix; effects by names as in C88."
  },
  {
   "property": "C114",
   "status": "proved",
   "theorems": [
    "C114_stack_machine",
    "C114_stack_below",
    "C114_at_least",
    "C114_simple_machine",
    "C114_simple_below",
    "C114_parts",
    "C114_changes_agree",
    "C114_smaller"
   ],
   "note": "Soundness of the check, exact or with lower bounds; heights_fit is stated with says and SpecVm, the numbers of the calculator are an instance; announcements that pass agree in the change of height and can be made smaller together."
  },
  {
   "property": "C115",
   "status": "proved",
   "theorems": [
    "C115_contracts",
    "C115_sessions",
    "C115_complete",
    "C115_complete_without_panics",
    "C115_panics_from_sentences"
   ],
   "note": "Sound and complete; non-vacuity: a contract bounding sums, met by a concrete parser, used for all texts and in sessions."
  },
  {
   "property": "C116",
   "status": "proved",
   "theorems": [
    "C116_contracts_for_two",
    "C116_one_relation",
    "C116_replaced"
   ],
   "note": "Non-vacuity: two concrete texts with different instruction sections, a contract kept by both."
  },
  {
   "property": "C117",
   "status": "proved",
   "theorems": [
    "C117_calculators_compared",
    "C117_sessions",
    "C117_debug_same_numbers"
   ],
   "note": "At the API for both example grammars, any build modes; panics attributed to debug builds of the machine that panics. The 19 digits are needed: C50_long_literals_refuted."
  },
  {
   "property": "C118",
   "status": "proved",
   "theorems": [
    "C118_simple_calculator",
    "C118_stack_calculator",
    "C118_values_left",
    "C118_api_calculator",
    "C118_programs_are_expressions",
    "C118_exchange",
    "C118_counts"
   ],
   "note": "Numbers of at most 19 digits in debug builds and 2^32 in release builds (longer ones: C50_long_literals_refuted)."
  }
 ]
}